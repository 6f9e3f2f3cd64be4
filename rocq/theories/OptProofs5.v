(** * Options: enumerations and sets *)
From Coq Require Import ZArith List Bool Lia SpecFloat.
Import ListNotations.
Require Import Verif.Bits Verif.StrModel Verif.NumModel Verif.OpsModel Verif.OpsProofs Verif.MiscModel Verif.OptModel Verif.OptSpec Verif.OptProofs Verif.OptProofs2 Verif.OptProofs3 Verif.OptProofs4.
Require Verif.CodecSpec Verif.StrSpec Verif.StrProps.
Local Open Scope Z_scope.
Local Notation str := (list Z).

Lemma set_bit_spec m n on : 0 <= n < 31 -> exists m1, set_bit m n on = Some m1 /\ forall i, 0 <= i < 64 -> Z.testbit m1 i = if n =? i then on else Z.testbit m i.
Proof.
  intros R. unfold set_bit, bit. destruct (Z.ltb_spec n 31); [|lia]. eexists. split; [reflexivity|]. intros i Hi. destruct on.
  - rewrite Z.lor_spec, Z.pow2_bits_eqb by lia. destruct (Z.eqb_spec n i); [now rewrite orb_true_r|now rewrite orb_false_r].
  - rewrite Z.land_spec, Z.ldiff_spec, Z.pow2_bits_eqb by lia. replace (2 ^ 64 - 1) with (Z.ones 64) by reflexivity. rewrite Z.ones_spec_low by lia. cbn [andb].
    destruct (Z.eqb_spec n i); [apply andb_false_r|apply andb_true_r].
Qed.
Lemma piece_bang s : piece s = (negb (fst (bang s)), snd (bang s)).
Proof. destruct s as [|c s]; [reflexivity|]. cbn [piece bang]. destruct (c =? 33); reflexivity. Qed.
(** One piece. *)
Definition fit (nc : bool) (names : list str) (s : str) : Prop := exists n, stands_for nc names s n.
Lemma fit_index nc names s n : (length names <= 31)%nat -> stands_for nc names s n -> 0 <= n < 31.
Proof. intros L H. apply get_index_in in H. lia. Qed.

Lemma bits_str_err names nc ass size l : (length names <= 31)%nat -> forall m, bits_str names nc ass size l m false = BErr.
Proof.
  intros L. induction l as [|s l IH]; intros m; [reflexivity|]. cbn [bits_str]. destruct (bang s) as [isnot s1]. destruct (get_index false nc names s1) as [n|] eqn:G; [|apply IH].
  destruct (set_bit_spec m n (negb isnot)) as (m1 & -> & _); [apply get_index_in in G; lia|]. apply IH.
Qed.
Lemma bits_str_ok names nc ass size l : (length names <= 31)%nat -> forall m,
  (Forall (fun s => exists n, stands_for nc names s n /\ n < size * 8 /\ (ass = true -> fst (piece s) = true)) l ->
    exists m1, bits_str names nc ass size l m true = BGo m1 /\ forall i, 0 <= i < 64 -> turns nc names i l (Z.testbit m i) (Z.testbit m1 i)) /\
  (~ Forall (fun s => exists n, stands_for nc names s n /\ n < size * 8 /\ (ass = true -> fst (piece s) = true)) l -> bits_str names nc ass size l m true = BErr).
Proof.
  intros L. induction l as [|s l IH]; intros m.
  - split; [|intros N; now destruct N]. intros _. exists m. split; [reflexivity|]. intros. constructor.
  - cbn [bits_str]. unfold stands_for. pose proof (piece_bang s) as PB. destruct (bang s) as [isnot s1] eqn:BS. cbn [fst snd] in PB. destruct (get_index false nc names s1) as [n|] eqn:G.
    + assert (R : 0 <= n < 31) by (apply get_index_in in G; lia). destruct (set_bit_spec m n (negb isnot) R) as (m1 & S1 & S2). rewrite S1. cbn [andb].
      destruct (negb (isnot && ass) && (n <? size * 8)) eqn:OK.
      * specialize (IH m1). destruct IH as [IH1 IH2]. split.
        { intros F. inversion F as [|? ? _ F2]; subst. destruct (IH1 F2) as (m2 & E & T). exists m2. split; [exact E|]. intros i Hi. specialize (T i Hi). rewrite (S2 i Hi) in T.
          destruct (Z.eqb_spec n i) as [->|N].
          - apply turns_this; [unfold stands_for; now rewrite PB|]. now rewrite PB.
          - apply turns_other; [|exact T]. unfold stands_for. rewrite PB. cbn [snd]. congruence. }
        { intros N. apply IH2. intros F. apply N. constructor; [|exact F]. exists n. rewrite PB. cbn [fst snd]. split; [exact G|]. apply andb_true_iff in OK as [O1 O2]. split; [now apply Z.ltb_lt|]. intros ->. rewrite andb_true_r in O1. exact O1. }
      * rewrite bits_str_err by exact L. split; [|reflexivity]. intros F. exfalso. inversion F as [|? ? (n' & F1 & F2 & F3) _]; subst. rewrite PB in F1, F3. cbn [fst snd] in F1, F3. rewrite G in F1. injection F1 as <-.
        apply Z.ltb_lt in F2. rewrite F2, andb_true_r in OK. destruct ass; [|now rewrite andb_false_r in OK]. rewrite andb_true_r in OK. rewrite (F3 eq_refl) in OK. discriminate.
    + rewrite bits_str_err by exact L. split; [|reflexivity]. intros F. exfalso. inversion F as [|? ? (n' & F1 & _) _]; subst. rewrite PB in F1. cbn [snd] in F1. congruence.
Qed.
Lemma load_bits m a k x i : 0 <= i < 8 * Z.of_nat k -> Z.testbit (load_u (store_int m a k x) a k) i = Z.testbit x i.
Proof. intros H. rewrite load_store, pow256. now apply Z.mod_pow2_bits_low. Qed.
(** A string: "a,!b" changes the set, "=a,b" replaces it. *)
Theorem bitset_text m a sz names nc (ass : bool) s s1 : good_size sz = true -> (length names <= 31)%nat -> text_bytes s1 -> s1 <> [] ->
  s = (if ass then 61 :: s1 else s1) -> (ass = false -> forall r, s <> 61 :: r) ->
  exists l : list str, StrSpec.cut (fun sep => sep = [44]) s1 l /\ split_str s1 [44] = Done l /\
    (Forall (fun p => exists n, stands_for nc names p n /\ n < sz * 8 /\ (ass = true -> fst (piece p) = true)) l ->
       exists m', set_bitset m a sz names nc (Some (VStr s)) = Ok m' /\
         forall i, 0 <= i < sz * 8 -> turns nc names i l (if ass then false else Z.testbit (load_u m a (Z.to_nat sz)) i) (Z.testbit (load_u m' a (Z.to_nat sz)) i)) /\
    (~ Forall (fun p => exists n, stands_for nc names p n /\ n < sz * 8 /\ (ass = true -> fst (piece p) = true)) l -> set_bitset m a sz names nc (Some (VStr s)) = Err m).
Proof.
  intros G L T N E NA. destruct (StrProps.split_gives_pieces s1 [44]) as (l & S1 & S2); [|discriminate|].
  { revert T. apply Forall_impl. intros. lia. }
  exists l. split; [exact S2|]. split; [exact S1|]. destruct (good_size_nat sz G) as (Z1 & Z2 & _).
  assert (D : match s with c :: r => if c =? 61 then (true, r) else (false, s) | [] => (false, []) end = (ass, s1)).
  { destruct ass; subst s; [reflexivity|]. destruct s1 as [|c r]; [contradiction|]. destruct (Z.eqb_spec c 61) as [->|]; [|reflexivity]. now destruct (NA eq_refl r). }
  set (m0 := if ass then 0 else load_u m a (Z.to_nat sz)).
  assert (U : set_bitset m a sz names nc (Some (VStr s)) = match bits_str names nc ass sz l m0 true with BGo x => Ok (store_int m a (Z.to_nat sz) x) | BErr => Err m | BUndef => Undef end).
  { unfold set_bitset. rewrite G, D, S1. cbn [negb]. destruct s1; [contradiction|reflexivity]. }
  rewrite U. destruct (bits_str_ok names nc ass sz l L m0) as [B1 B2]. split.
  - intros F. destruct (B1 F) as (x & X1 & X2). rewrite X1. eexists. split; [reflexivity|]. intros i Hi. rewrite load_bits by lia. specialize (X2 i ltac:(lia)). unfold m0 in X2. destruct ass; [|exact X2]. now rewrite Z.bits_0 in X2.
  - intros F. now rewrite (B2 F).
Qed.
Lemma pieces_dec nc names sz (ass : bool) l :
  {Forall (fun p => exists n, stands_for nc names p n /\ n < sz * 8 /\ (ass = true -> fst (piece p) = true)) l} + {~ Forall (fun p => exists n, stands_for nc names p n /\ n < sz * 8 /\ (ass = true -> fst (piece p) = true)) l}.
Proof.
  apply Forall_dec. intros p. unfold stands_for. destruct (get_index false nc names (snd (piece p))) as [n|]; [|right; intros (n & H & _); discriminate].
  destruct (Z_lt_dec n (sz * 8)) as [L|L]; [|right; intros (k & H & K & _); injection H as <-; contradiction].
  destruct ass; [|left; exists n; repeat split; auto; discriminate]. destruct (fst (piece p)) eqn:F; [left; exists n; auto|]. right. intros (k & _ & _ & H). specialize (H eq_refl). discriminate.
Qed.
(** Reading a set of four bytes. *)
Lemma bitset_names_chosen l n : forall i, 0 <= i -> i + Z.of_nat (length l) <= 32 -> bitset_names l n i = Done (map (fun s => Some (VStr s)) (chosen l (Z.testbit n) i)).
Proof.
  induction l as [|s l IH]; intros i I L; [reflexivity|]. cbn [bitset_names chosen length] in *. destruct (Z.ltb_spec i 32); [|lia]. rewrite IH by lia. destruct (Z.testbit n i); reflexivity.
Qed.
Lemma chosen_ext l f g : forall i, (forall j, i <= j < i + Z.of_nat (length l) -> f j = g j) -> chosen l f i = chosen l g i.
Proof. induction l as [|s l IH]; intros i H; [reflexivity|]. cbn [chosen length] in *. rewrite (H i) by lia. rewrite (IH (i + 1)) by (intros; apply H; lia). reflexivity. Qed.
Theorem bitset_reads m a sz names nc : (length names <= 32)%nat ->
  get_leaf m a sz (LBitset names nc) = Done (VArr (map (fun s => Some (VStr s)) (chosen names (Z.testbit (load_u m a 4)) 0))).
Proof.
  intros L. cbn [get_leaf]. rewrite bitset_names_chosen by lia. f_equal. f_equal. f_equal. apply chosen_ext. intros j Hj. unfold load_int. cbn [andb].
  destruct (2 ^ (8 * Z.of_nat 4 - 1) <=? load_u m a 4); [|reflexivity].
  assert (Q : Z.testbit ((load_u m a 4 - 2 ^ (8 * Z.of_nat 4)) mod 2 ^ 32) j = Z.testbit (load_u m a 4 - 2 ^ (8 * Z.of_nat 4)) j) by (apply Z.mod_pow2_bits_low; lia).
  rewrite <- Q. assert (Q2 : Z.testbit (load_u m a 4 mod 2 ^ 32) j = Z.testbit (load_u m a 4) j) by (apply Z.mod_pow2_bits_low; lia). rewrite <- Q2. f_equal.
  change (2 ^ (8 * Z.of_nat 4)) with (2 ^ 32). replace (load_u m a 4 - 2 ^ 32) with (load_u m a 4 + (-1) * 2 ^ 32) by lia. apply Z_mod_plus_full.
Qed.
(** An array of names, none of them "=". *)
Lemma bits_arr_ok names nc im l : (length names <= 31)%nat -> forall k m, l <> [] -> 0 <= k -> (k = 0 -> m = 0) ->
  (k = 0 -> match l with s :: _ => s <> [61] | [] => True end) ->
  (Forall (fit nc names) l -> exists m1, bits_arr names nc im k (map (fun s => Some (VStr s)) l) m = BGo m1 /\ forall i, 0 <= i < 64 -> turns nc names i l (Z.testbit (if k =? 0 then im else m) i) (Z.testbit m1 i)) /\
  (~ Forall (fit nc names) l -> bits_arr names nc im k (map (fun s => Some (VStr s)) l) m = BErr).
Proof.
  intros L. induction l as [|s l IH]; intros k m N K M EQ; [contradiction|]. cbn [map bits_arr].
  assert (NE : (k =? 0) && same MiscModel.keep s [61] = false).
  { destruct (Z.eqb_spec k 0) as [E|]; [|reflexivity]. cbn [andb]. destruct (same MiscModel.keep s [61]) eqn:X; [|reflexivity]. apply same_eq in X. now destruct (EQ E). }
  rewrite NE. cbn zeta. set (m0 := if k =? 0 then im else m). pose proof (piece_bang s) as PB. destruct (bang s) as [isnot s1] eqn:BS. cbn [fst snd] in PB. destruct (get_index false nc names s1) as [n|] eqn:G.
  - assert (R : 0 <= n < 31) by (apply get_index_in in G; lia). destruct (set_bit_spec m0 n (negb isnot) R) as (m1 & S1 & S2). rewrite S1.
    assert (FS : fit nc names s) by (exists n; unfold stands_for; now rewrite PB).
    assert (STEP : forall b i, 0 <= i < 64 -> turns nc names i l (Z.testbit m1 i) b -> turns nc names i (s :: l) (Z.testbit m0 i) b).
    { intros b i Hi T. rewrite (S2 i Hi) in T. destruct (Z.eqb_spec n i) as [->|Q].
      - apply turns_this; [unfold stands_for; now rewrite PB|now rewrite PB].
      - apply turns_other; [unfold stands_for; rewrite PB; cbn [snd]; congruence|exact T]. }
    destruct l as [|s' l].
    + cbn [map bits_arr]. split; [|intros F; destruct F; now repeat constructor]. intros _. exists m1. split; [reflexivity|]. intros i Hi. apply STEP; [exact Hi|constructor].
    + destruct (IH (k + 1) m1 ltac:(discriminate) ltac:(lia) ltac:(lia) ltac:(lia)) as [I1 I2]. split.
      * intros F. inversion F as [|? ? _ F2]; subst. destruct (I1 F2) as (m2 & E & T). exists m2. split; [exact E|]. intros i Hi. specialize (T i Hi). destruct (Z.eqb_spec (k + 1) 0); [lia|]. now apply STEP.
      * intros F. apply I2. intros F2. apply F. now constructor.
  - split; [|reflexivity]. intros F. exfalso. inversion F as [|? ? (n & F1) _]; subst. unfold stands_for in F1. rewrite PB in F1. cbn [snd] in F1. congruence.
Qed.
Theorem bitset_array m a sz names nc l : good_size sz = true -> (length names <= 31)%nat -> l <> [] -> hd [] l <> [61] ->
  (Forall (fit nc names) l -> exists m', set_bitset m a sz names nc (Some (VArr (map (fun s => Some (VStr s)) l))) = Ok m' /\
     forall i, 0 <= i < sz * 8 -> turns nc names i l (Z.testbit (load_u m a (Z.to_nat sz)) i) (Z.testbit (load_u m' a (Z.to_nat sz)) i)) /\
  (~ Forall (fit nc names) l -> set_bitset m a sz names nc (Some (VArr (map (fun s => Some (VStr s)) l))) = Err m).
Proof.
  intros G L N H. destruct (good_size_nat sz G) as (Z1 & Z2 & _).
  destruct (bits_arr_ok names nc (load_u m a (Z.to_nat sz)) l L 0 0 N ltac:(lia) ltac:(reflexivity)) as [B1 B2]; [intros _; destruct l; [exact Logic.I|exact H]|].
  unfold set_bitset. rewrite G. cbn [negb]. split.
  - intros F. destruct (B1 F) as (x & X1 & X2). rewrite X1. eexists. split; [reflexivity|]. intros i Hi. rewrite load_bits by lia. apply (X2 i). lia.
  - intros F. now rewrite (B2 F).
Qed.
(** An object: name to true or false, for a set of one byte. *)
Definition as_piece (kv : str * bool) : str := if snd kv then fst kv else 33 :: fst kv.
Theorem bitset_object m a names nc ms : (length names <= 8)%nat -> Forall (fun kv => hd 0 (fst kv) <> 33) ms -> Forall (fun kv => exists n, get_index false nc names (fst kv) = Some n) ms ->
  exists m', set_bitset m a 1 names nc (Some (VObj (map (fun kv => (fst kv, VBool (snd kv))) ms))) = Ok m' /\
     forall i, 0 <= i < 8 -> turns nc names i (map as_piece ms) (Z.testbit (load_u m a 1) i) (Z.testbit (load_u m' a 1) i).
Proof.
  intros L NB F. assert (B : forall x, exists y, bits_obj names nc (map (fun kv => (fst kv, VBool (snd kv))) ms) x = BGo y /\ forall i, 0 <= i < 64 -> turns nc names i (map as_piece ms) (Z.testbit x i) (Z.testbit y i)).
  { induction F as [|[s on] ms (n & F1) F2 IH]; intros x; [exists x; split; [reflexivity|constructor]|]. inversion NB as [|? ? NB1 NB2]; subst. cbn [map bits_obj fst snd] in *. rewrite F1.
    destruct (set_bit_spec x n on) as (x1 & -> & S2); [apply get_index_in in F1; lia|]. destruct (IH NB2 x1) as (y & -> & T). exists y. split; [reflexivity|]. intros i Hi. specialize (T i Hi). rewrite (S2 i Hi) in T.
    assert (PC : piece (as_piece (s, on)) = (on, s)). { unfold as_piece. cbn [fst snd]. destruct on; [|reflexivity]. destruct s as [|c s]; [reflexivity|]. cbn [hd] in NB1. cbn [piece]. destruct (Z.eqb_spec c 33); [contradiction|reflexivity]. }
    destruct (Z.eqb_spec n i) as [->|Q].
    - apply turns_this; [unfold stands_for; now rewrite PC|now rewrite PC].
    - apply turns_other; [unfold stands_for; rewrite PC; cbn [snd]; congruence|exact T]. }
  destruct (B (load_u m a 1)) as (y & Y1 & Y2). unfold set_bitset. cbn [good_size negb]. change (negb (good_size 1)) with false. cbn iota. change (Z.to_nat 1) with 1%nat. rewrite Y1. eexists. split; [reflexivity|]. intros i Hi.
  assert (Q : Z.testbit (load_u (put m a (CByte (y mod 256))) a 1) i = Z.testbit y i).
  { cbn [load_u]. unfold put. rewrite Z.eqb_refl. cbn [byte_of]. rewrite Z.add_0_r. change 256 with (2 ^ 8). apply Z.mod_pow2_bits_low. lia. }
  rewrite Q. apply Y2. lia.
Qed.
