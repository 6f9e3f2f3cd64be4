(** Proofs about the byte codecs. *)
From Coq Require Import ZArith List Bool Lia.
Import ListNotations.
From Verif Require Import Bits UtfModel CodecModel CodecSpec.
Local Open Scope Z_scope.

Lemma byte_forall : forall P : Z -> bool,
  forallb P (map Z.of_nat (seq 0 256)) = true -> forall x, byte x -> P x = true.
Proof. intros P H x Hx. apply (range_forall 256 P); auto. Qed.

Ltac by_bytes P := let x := fresh in intros x Hx; pattern x;
  apply Z.eqb_eq; revert x Hx; apply (byte_forall P); vm_compute; reflexivity.

(** * CRC *)
Definition cstep (x : Z) : Z := Z.lxor (x / 2) (if x mod 2 =? 1 then 0xEDB88320 else 0).

Lemma lxor_div2 : forall x y, Z.lxor x y / 2 = Z.lxor (x / 2) (y / 2).
Proof. intros. rewrite <- !Z.div2_div. rewrite !Z.div2_spec. apply Z.shiftr_lxor. Qed.
Lemma mod2_odd : forall x, (x mod 2 =? 1) = Z.odd x.
Proof. intros. rewrite Zmod_odd. destruct (Z.odd x); reflexivity. Qed.
Lemma cstep_lin : forall x y, cstep (Z.lxor x y) = Z.lxor (cstep x) (cstep y).
Proof.
  intros. unfold cstep. rewrite lxor_div2, !mod2_odd.
  rewrite <- !Z.bit0_odd, Z.lxor_spec.
  destruct (Z.testbit x 0), (Z.testbit y 0); cbn [xorb];
  rewrite ?Z.lxor_0_r; rewrite ?Z.lxor_assoc; f_equal.
  - rewrite (Z.lxor_comm 3988292384), Z.lxor_assoc, Z.lxor_nilpotent, Z.lxor_0_r. reflexivity.
  - apply Z.lxor_comm.
Qed.
Lemma cstep_double : forall x, cstep (x * 2) = x.
Proof. intros. unfold cstep. rewrite Z.div_mul, Z.mod_mul by lia. apply Z.lxor_0_r. Qed.
Lemma crc_bit_cstep : forall x b, b = 0 \/ b = 1 -> crc_bit x b = cstep (Z.lxor x b).
Proof.
  intros x b [-> | ->]; unfold crc_bit, cstep.
  - rewrite Z.add_0_r, Z.lxor_0_r. destruct (x mod 2 =? 1); [reflexivity|]. rewrite Z.lxor_0_r; auto.
  - rewrite lxor_div2, !mod2_odd, <- !Z.bit0_odd, Z.lxor_spec. change (1 / 2) with 0.
    rewrite Z.bit0_odd, Z.odd_add, Z.bit0_odd. change (Z.odd 1) with true. change (Z.testbit 1 0) with true.
    rewrite Z.lxor_0_r. destruct (xorb (Z.odd x) true); [reflexivity|]. rewrite Z.lxor_0_r; auto.
Qed.

Lemma lxor_add_low : forall k n y, 0 <= n -> 0 <= y < 2 ^ n -> Z.lxor (k * 2 ^ n) y = k * 2 ^ n + y.
Proof.
  intros k n y Hn Hy. rewrite <- lor_add by auto. apply Z.lxor_lor.
  apply Z.bits_inj'. intros i Hi. rewrite Z.land_spec, Z.bits_0.
  destruct (Z_lt_ge_dec i n) as [L|L].
  - rewrite Z.mul_pow2_bits_low by auto. reflexivity.
  - rewrite <- (Z.mod_small y (2 ^ n)) by auto. rewrite Z.mod_pow2_bits_high by lia. apply andb_false_r.
Qed.

(** [k] zero-bit steps *)
Fixpoint csteps (k : nat) (x : Z) : Z := match k with O => x | S k => csteps k (cstep x) end.
Lemma csteps_lin : forall k x y, csteps k (Z.lxor x y) = Z.lxor (csteps k x) (csteps k y).
Proof. induction k; intros; simpl; auto. rewrite cstep_lin; auto. Qed.
Lemma csteps_shift : forall k x, csteps k (x * 2 ^ Z.of_nat k) = x.
Proof.
  induction k; intros; cbn [csteps]; [cbn; lia|].
  rewrite Nat2Z.inj_succ, Z.pow_succ_r by lia.
  replace (x * (2 * 2 ^ Z.of_nat k)) with (x * 2 ^ Z.of_nat k * 2) by ring. rewrite cstep_double; auto.
Qed.

(** the value whose binary digits, least significant first, are bs *)
Fixpoint bitval (bs : list Z) : Z := match bs with [] => 0 | b :: r => b + 2 * bitval r end.
Lemma crc_bits : forall bs x, Forall (fun b => b = 0 \/ b = 1) bs ->
  fold_left crc_bit bs x = csteps (length bs) (Z.lxor x (bitval bs)).
Proof.
  induction bs as [|b bs IH]; intros x H; cbn [bitval fold_left length csteps]; [rewrite Z.lxor_0_r; auto|].
  inversion H; subst. rewrite IH by auto. f_equal. rewrite crc_bit_cstep by auto.
  replace (b + 2 * bitval bs) with (Z.lxor (bitval bs * 2) b).
  2:{ pose proof (lxor_add_low (bitval bs) 1 b) as LL. change (2 ^ 1) with 2 in LL. rewrite LL; destruct H2; subst; lia. }
  rewrite (Z.lxor_comm (bitval bs * 2)), <- Z.lxor_assoc, (cstep_lin (Z.lxor x b)), cstep_double. reflexivity.
Qed.

Lemma tab_ok : forall i, 0 <= i < 16 -> at_ s_crc32 (Z.to_nat i) = csteps 4 i.
Proof.
  intros i Hi. apply Z.eqb_eq. revert i Hi.
  apply (range_forall 16 (fun i => at_ s_crc32 (Z.to_nat i) =? csteps 4 i)). vm_compute. reflexivity.
Qed.
Lemma nibble_step : forall c n, 0 <= n < 16 ->
  Z.lxor (Z.shiftr c 4) (at_ s_crc32 (Z.to_nat (Z.lxor (Z.land c 15) n))) = csteps 4 (Z.lxor c n).
Proof.
  intros c n Hn. change 15 with (2 ^ 4 - 1). rewrite land_pow2, shiftr_div by lia.
  set (l := c mod 2 ^ 4). assert (Hl : 0 <= l < 2 ^ 4) by (apply Z.mod_pos_bound; lia).
  assert (Hx : 0 <= Z.lxor l n < 16).
  { pose proof (Z.lxor_nonneg l n). split; [apply H; lia|].
    destruct (Z.eq_dec (Z.lxor l n) 0) as [Z0|NZ]; [lia|].
    change 16 with (2 ^ 4). apply Z.log2_lt_pow2; [assert (0 <= Z.lxor l n) by (apply H; lia); lia|].
    eapply Z.le_lt_trans; [apply Z.log2_lxor; lia|].
    apply Z.max_lub_lt; [destruct (Z.eq_dec l 0); [subst; rewrite e; simpl; lia|]|
                         destruct (Z.eq_dec n 0); [subst; simpl; lia|]]; apply Z.log2_lt_pow2; lia. }
  rewrite tab_ok by auto.
  rewrite (Z.div_mod c (2 ^ 4)) at 2 by lia. fold l.
  rewrite (Z.mul_comm (2 ^ 4)), <- (lxor_add_low _ 4 l) by lia.
  rewrite Z.lxor_assoc, (csteps_lin 4 (_ * _)). f_equal.
  symmetry; apply (csteps_shift 4).
Qed.

Lemma csteps_add : forall a b x, csteps (a + b) x = csteps b (csteps a x).
Proof. induction a; simpl; auto. Qed.

Lemma crc_byte_serial : forall c b, byte b -> crc_byte c b = fold_left crc_bit (byte_bits b) c.
Proof.
  intros c b Hb. unfold crc_byte.
  assert (E1 : Z.land b 15 = b mod 16) by (change 15 with (2 ^ 4 - 1); rewrite land_pow2; [reflexivity|lia]).
  assert (E2 : Z.shiftr b 4 = b / 16) by (rewrite shiftr_div by lia; reflexivity).
  unfold byte in Hb.
  assert (B1 : 0 <= b mod 16 < 16) by (apply Z.mod_pos_bound; lia).
  assert (B2 : 0 <= b / 16 < 16) by (split; [apply Z.div_pos; lia|apply Z.div_lt_upper_bound; lia]).
  rewrite E1, E2. rewrite (nibble_step c) by auto. rewrite nibble_step by auto.
  rewrite crc_bits.
  2:{ unfold byte_bits. apply Forall_map, Forall_forall. intros i _.
      pose proof (Z.mod_pos_bound (b / 2 ^ i) 2). lia. }
  assert (E3 : bitval (byte_bits b) = b).
  { assert (H : byte b) by auto. revert b H B1 B2 E1 E2 Hb. 
    intros b H _ _ _ _ _. apply Z.eqb_eq. revert b H. apply (byte_forall (fun b => bitval (byte_bits b) =? b)).
    vm_compute. reflexivity. }
  rewrite E3. change (length (byte_bits b)) with (4 + 4)%nat. rewrite csteps_add. f_equal.
  assert (E4 : b = Z.lxor (b / 16 * 2 ^ 4) (b mod 16)).
  { rewrite lxor_add_low by (cbn; lia). change (2 ^ 4) with 16. pose proof (Z.div_mod b 16). lia. }
  rewrite E4 at 3. rewrite (Z.lxor_comm (b / 16 * 2 ^ 4)), <- Z.lxor_assoc, (csteps_lin 4 (Z.lxor c _)).
  f_equal. symmetry. apply (csteps_shift 4).
Qed.

Lemma crc_fold_serial : forall s c, bytes s -> fold_left crc_byte s c = crc_bitserial c s.
Proof.
  unfold crc_bitserial. induction s as [|b s IH]; intros c H; cbn [fold_left flat_map]; auto.
  inversion H; subst. rewrite fold_left_app, <- crc_byte_serial by auto. apply IH; auto.
Qed.

(** * base64 *)
Lemma ev_char : forall v, 0 <= v < 64 -> at_ b64ev (Z.to_nat v) = b64char v.
Proof.
  intros i Hi. apply Z.eqb_eq. revert i Hi.
  apply (range_forall 64 (fun v => at_ b64ev (Z.to_nat v) =? b64char v)). vm_compute. reflexivity.
Qed.
Lemma ev_index : forall v, 0 <= v < 64 -> strchr_ix b64ev (b64char v) 0 = Some v.
Proof.
  intros i Hi.
  assert (H : (match strchr_ix b64ev (b64char i) 0 with Some w => w =? i | None => false end) = true).
  { revert i Hi. apply (range_forall 64 (fun i => match strchr_ix b64ev (b64char i) 0 with Some w => w =? i | None => false end)).
    vm_compute. reflexivity. }
  destruct (strchr_ix b64ev (b64char i) 0); [|discriminate]. b2p. subst; auto.
Qed.
Lemma b64char_plain : forall v, 0 <= v < 64 -> (schar (b64char v) <? 0) || (b64char v =? 61) = false
   /\ b64char v <> 10 /\ b64char v <> 13.
Proof.
  intros i Hi.
  assert (H : negb ((schar (b64char i) <? 0) || (b64char i =? 61)) && negb (b64char i =? 10) && negb (b64char i =? 13) = true).
  { revert i Hi. apply (range_forall 64 (fun i => negb ((schar (b64char i) <? 0) || (b64char i =? 61)) && negb (b64char i =? 10) && negb (b64char i =? 13))).
    vm_compute. reflexivity. }
  apply andb_true_iff in H. destruct H as [H H3]. apply andb_true_iff in H. destruct H as [H1 H2].
  apply negb_true_iff in H1, H2, H3. b2p. auto.
Qed.
Lemma b64char_range : forall v, 0 <= v < 64 -> 0 < b64char v < 128.
Proof. intros v Hv. unfold b64char. repeat match goal with |- context[if ?c then _ else _] => destruct c eqn:?; b2p end; lia. Qed.
Lemma strchr_ev_inv : forall c, 0 < c -> strchr_ix b64ev c 0 <> None -> exists v, 0 <= v < 64 /\ c = b64char v.
Proof.
  intros c Hc H.
  assert (Hin : In c b64ev).
  { revert Hc H. generalize 0 at 2. generalize b64ev. induction l as [|x l IH]; intros i Hc H; simpl in H.
    - destruct (c =? 0) eqn:E; b2p; [lia|congruence].
    - destruct (x =? c) eqn:E; b2p; [left; auto|right; eapply IH; eauto]. }
  assert (Q : forallb (fun c => existsb (fun v => c =? b64char v) (map Z.of_nat (seq 0 64))) b64ev = true) by (vm_compute; reflexivity).
  rewrite forallb_forall in Q. apply Q in Hin. apply existsb_exists in Hin. destruct Hin as (v & I & E).
  b2p. apply in_map_iff in I. destruct I as (n & <- & I). apply in_seq in I. exists (Z.of_nat n). split; auto. lia.
Qed.

Lemma sx_a : forall a, byte a -> Z.land (Z.shiftr (schar a) 2) 63 = a / 4.
Proof. intros a H. apply Z.eqb_eq. revert a H. apply (byte_forall (fun a => Z.land (Z.shiftr (schar a) 2) 63 =? a / 4)). vm_compute. reflexivity. Qed.
Lemma sx_b : forall a, byte a -> Z.land (Z.shiftl (schar a) 4) 48 = (a mod 4) * 2 ^ 4.
Proof. intros a H. apply Z.eqb_eq. revert a H. apply (byte_forall (fun a => Z.land (Z.shiftl (schar a) 4) 48 =? (a mod 4) * 2 ^ 4)). vm_compute. reflexivity. Qed.
Lemma sx_c : forall a, byte a -> Z.land (Z.shiftr (schar a) 4) 15 = a / 16.
Proof. intros a H. apply Z.eqb_eq. revert a H. apply (byte_forall (fun a => Z.land (Z.shiftr (schar a) 4) 15 =? a / 16)). vm_compute. reflexivity. Qed.
Lemma sx_d : forall a, byte a -> Z.land (Z.shiftl (schar a) 2) 60 = (a mod 16) * 2 ^ 2.
Proof. intros a H. apply Z.eqb_eq. revert a H. apply (byte_forall (fun a => Z.land (Z.shiftl (schar a) 2) 60 =? (a mod 16) * 2 ^ 2)). vm_compute. reflexivity. Qed.
Lemma sx_e : forall a, byte a -> Z.land (Z.shiftr (schar a) 6) 3 = a / 64.
Proof. intros a H. apply Z.eqb_eq. revert a H. apply (byte_forall (fun a => Z.land (Z.shiftr (schar a) 6) 3 =? a / 64)). vm_compute. reflexivity. Qed.
Lemma sx_f : forall a, byte a -> Z.land (schar a) 63 = a mod 64.
Proof. intros a H. apply Z.eqb_eq. revert a H. apply (byte_forall (fun a => Z.land (schar a) 63 =? a mod 64)). vm_compute. reflexivity. Qed.

Ltac euc := Z.div_mod_to_equations; lia.

Ltac list_eq := repeat match goal with |- _ :: _ = _ :: _ => apply f_equal2 | |- [] = [] => reflexivity end; try euc.
Lemma round_spec : forall a b c, byte a -> byte b -> byte c ->
  let n := a * 65536 + b * 256 + c in
  sextets n = [a / 4; a mod 4 * 16 + b / 16; b mod 16 * 4 + c / 64; c mod 64].
Proof. intros a b c Ha Hb Hc n. unfold byte in *. unfold sextets, n. list_eq. Qed.

Lemma sextet_bounds : forall a b c, byte a -> byte b -> byte c ->
  0 <= a / 4 < 64 /\ 0 <= a mod 4 * 16 + b / 16 < 64 /\ 0 <= b mod 16 * 4 + c / 64 < 64 /\ 0 <= c mod 64 < 64.
Proof. intros a b c Ha Hb Hc. unfold byte in *. euc. Qed.

Lemma byte0 : byte 0. Proof. unfold byte; lia. Qed.

Lemma round_gen : forall p, p <> [] -> bytes p ->
  let a := at_ p 0 in let b := at_ p 1 in let c := at_ p 2 in
  b64_round p =
  [b64char (a / 4); b64char (a mod 4 * 16 + b / 16);
   if (length p <? 2)%nat then 61 else b64char (b mod 16 * 4 + c / 64);
   if (length p <? 3)%nat then 61 else b64char (c mod 64)].
Proof.
  intros p NE HP a b c.
  assert (Hat : forall i, byte (at_ p i)).
  { intros i. unfold at_. destruct (Nat.lt_ge_cases i (length p)) as [L|L].
    - unfold bytes in HP. rewrite Forall_forall in HP. apply HP, nth_In; auto.
    - rewrite nth_overflow by auto. apply byte0. }
  pose proof (Hat 0%nat) as Ha. pose proof (Hat 1%nat) as Hb. pose proof (Hat 2%nat) as Hc.
  fold a in Ha. fold b in Hb. fold c in Hc.
  destruct (sextet_bounds a b c Ha Hb Hc) as (S1 & S2 & S3 & S4).
  unfold b64_round. cbv zeta. fold a. fold b. fold c.
  rewrite sx_a, sx_b, sx_c, sx_d, sx_e, sx_f by auto.
  rewrite !lor_add; try lia; try (unfold byte in *; euc).
  change (2 ^ 4) with 16. change (2 ^ 2) with 4.
  rewrite ev_char by auto. unfold ppdcs.
  replace (length p <? 1)%nat with false by (destruct p; [congruence|reflexivity]).
  rewrite !ev_char by auto. reflexivity.
Qed.

Lemma round3 : forall a b c r, bytes (a :: b :: c :: r) ->
  b64_round (a :: b :: c :: r) = map b64char (sextets (a * 65536 + b * 256 + c)).
Proof.
  intros a b c r H. rewrite round_gen by (congruence || auto).
  inversion H as [|? ? Ha H1]; subst; inversion H1 as [|? ? Hb H2]; subst; inversion H2 as [|? ? Hc H3]; subst.
  rewrite round_spec by auto. reflexivity.
Qed.
Lemma round2 : forall a b, bytes [a; b] ->
  b64_round [a; b] = map b64char (firstn 3 (sextets (a * 65536 + b * 256))) ++ [61].
Proof.
  intros a b H. rewrite round_gen by (congruence || auto).
  inversion H as [|? ? Ha H1]; subst; inversion H1 as [|? ? Hb H2]; subst.
  replace (a * 65536 + b * 256) with (a * 65536 + b * 256 + 0) by lia.
  rewrite round_spec by (auto using byte0). reflexivity.
Qed.
Lemma round1 : forall a, bytes [a] ->
  b64_round [a] = map b64char (firstn 2 (sextets (a * 65536))) ++ [61; 61].
Proof.
  intros a H. rewrite round_gen by (congruence || auto).
  inversion H as [|? ? Ha H1]; subst.
  replace (a * 65536) with (a * 65536 + 0 * 256 + 0) by lia.
  rewrite round_spec by (auto using byte0). reflexivity.
Qed.

(** Recursion on a list in steps of three *)
Lemma list_ind3 : forall (P : list Z -> Prop), P [] -> (forall a, P [a]) -> (forall a b, P [a; b]) ->
  (forall a b c r, P r -> P (a :: b :: c :: r)) -> forall l, P l.
Proof.
  intros P H0 H1 H2 H3 l. assert (Q : P l /\ (forall x, P (x :: l)) /\ forall x y, P (x :: y :: l)).
  { induction l as [|z l (Q1 & Q2 & Q3)]; [auto|]. repeat split; auto. }
  apply Q.
Qed.

Lemma rfc_cons : forall p, p <> [] -> bytes p -> rfc4648 p = b64_round p ++ rfc4648 (skipn 3 p).
Proof.
  intros p NE H. destruct p as [|a [|b [|c r]]]; [congruence| | |].
  - rewrite round1 by auto. reflexivity.
  - rewrite round2 by auto. reflexivity.
  - rewrite round3 by auto. reflexivity.
Qed.
Lemma round_len : forall p, length (b64_round p) = 4%nat. Proof. reflexivity. Qed.

Lemma enc_loop_ok : forall fuel p c, bytes p -> (length p < fuel)%nat -> (length c < 72)%nat ->
  (exists k, length c = 4 * k)%nat ->
  exists o, b64_enc_loop fuel p c = Some o /\ lines72 (c ++ rfc4648 p) o.
Proof.
  induction fuel as [|f IH]; intros p c HP HF HC (k & HK); [lia|].
  destruct p as [|a p'] eqn:EP.
  - cbn [b64_enc_loop]. replace (73 <? length c)%nat with false by (symmetry; apply Nat.ltb_ge; lia).
    exists c. split; auto. simpl. rewrite app_nil_r. constructor; auto.
  - rewrite <- EP in *. assert (NE : p <> []) by congruence.
    assert (EB : b64_enc_loop (S f) p c = (let c' := c ++ b64_round p in
      if (72 <=? length c')%nat then
        if (73 <=? length c')%nat then None
        else option_map (fun o => (c' ++ [10]) ++ o) (b64_enc_loop f (skipn 3 p) [])
      else b64_enc_loop f (skipn 3 p) c')) by (rewrite EP; reflexivity).
    rewrite EB. cbv zeta. rewrite rfc_cons by auto.
    assert (HP' : bytes (skipn 3 p)).
    { unfold bytes in *. rewrite <- (firstn_skipn 3 p) in HP. apply Forall_app in HP. apply HP. }
    assert (HL' : (length (skipn 3 p) < f)%nat) by (rewrite skipn_length; rewrite EP in *; simpl in *; lia).
    assert (LC : length (c ++ b64_round p) = (4 * k + 4)%nat) by (rewrite app_length, round_len; lia).
    rewrite LC. destruct (72 <=? 4 * k + 4)%nat eqn:E72.
    + apply Nat.leb_le in E72. replace (73 <=? 4 * k + 4)%nat with false by (symmetry; apply Nat.leb_gt; lia).
      destruct (IH (skipn 3 p) [] HP' HL') as (o & EO & HO); [simpl; lia|exists O; auto|].
      rewrite EO. simpl option_map. eexists; split; [reflexivity|].
      rewrite (app_assoc c), <- (app_assoc (c ++ b64_round p) [10]). apply l72_more; [lia|exact HO].
    + apply Nat.leb_gt in E72. rewrite app_assoc. apply IH; auto; [lia|exists (S k); lia].
Qed.

(** What lines72 means for the characters and the length *)
Lemma lines72_filter : forall l o, lines72 l o -> Forall (fun c => c <> 10) l ->
  filter (fun c => negb (c =? 10)) o = l.
Proof.
  assert (F : forall l, Forall (fun c => c <> 10) l -> filter (fun c => negb (c =? 10)) l = l).
  { induction l as [|x l IH]; intros H; [reflexivity|]. inversion H; subst. simpl.
    destruct (x =? 10) eqn:E; b2p; [congruence|]. simpl. f_equal; auto. }
  induction 1 as [l HL|a l o HA HO IH]; intros H; auto.
  apply Forall_app in H. destruct H. rewrite !filter_app, F by auto. simpl. f_equal; auto.
Qed.
Lemma lines72_length : forall l o, lines72 l o -> (length o = length l + length l / 72)%nat.
Proof.
  induction 1 as [l HL|a l o HA HO IH].
  - rewrite Nat.div_small; lia.
  - rewrite !app_length, IH, HA. simpl (length [10]).
    replace (72 + length l)%nat with (length l + 1 * 72)%nat at 2 by lia. rewrite Nat.div_add by lia. lia.
Qed.
Lemma rfc_length : forall s, (length (rfc4648 s) = 4 * ((length s + 2) / 3))%nat.
Proof.
  apply list_ind3; try reflexivity. intros a b c r IH.
  cbn [rfc4648]. rewrite app_length, IH, map_length. cbn [length sextets].
  replace (S (S (S (length r))) + 2)%nat with (length r + 2 + 1 * 3)%nat by lia.
  rewrite Nat.div_add by lia. lia.
Qed.

Lemma rfc_alpha : forall s, bytes s -> Forall (fun c => b64_alpha c \/ c = 61) (rfc4648 s).
Proof.
  assert (A : forall v, 0 <= v < 64 -> b64_alpha (b64char v) \/ b64char v = 61) by (intros; left; eexists; eauto).
  assert (A61 : b64_alpha 61 \/ 61 = 61) by (right; reflexivity).
  intros s. pattern s. apply list_ind3; clear s.
  - constructor.
  - intros a H. inversion H; subst. cbn [rfc4648]. replace (a * 65536) with (a * 65536 + 0 * 256 + 0) by lia.
    rewrite round_spec by (auto using byte0).
    destruct (sextet_bounds a 0 0) as (S1 & S2 & S3 & S4); auto using byte0.
    cbn [firstn map app]. repeat (apply Forall_cons; [auto|]); apply Forall_nil.
  - intros a b H. inversion H as [|? ? Ha H1]; subst; inversion H1; subst. cbn [rfc4648].
    replace (a * 65536 + b * 256) with (a * 65536 + b * 256 + 0) by lia.
    rewrite round_spec by (auto using byte0).
    destruct (sextet_bounds a b 0) as (S1 & S2 & S3 & S4); auto using byte0.
    cbn [firstn map app]. repeat (apply Forall_cons; [auto|]); apply Forall_nil.
  - intros a b c r IH H. inversion H as [|? ? Ha H1]; subst; inversion H1 as [|? ? Hb H2]; subst;
      inversion H2 as [|? ? Hc H3]; subst. cbn [rfc4648]. rewrite round_spec by auto.
    destruct (sextet_bounds a b c) as (S1 & S2 & S3 & S4); auto.
    cbn [map app]. repeat (apply Forall_cons; [auto|]). apply IH; auto.
Qed.

(** Decoder *)
Lemma scan_alpha : forall v l t, 0 <= v < 64 -> interspersed (b64char v :: l) t ->
  exists t', b64_scan t = (v, t', false) /\ interspersed l t' /\ (length t' < length t)%nat.
Proof.
  intros v l t Hv. remember (b64char v :: l) as L. intros H. revert HeqL. induction H; intros EL; [discriminate| |].
  - injection EL as -> ->. exists t. cbn [b64_scan].
    destruct (b64char_plain v Hv) as (P1 & _). rewrite P1, ev_index by auto. simpl; auto.
  - destruct (IHinterspersed EL) as (t' & S1 & S2 & S3). exists t'. cbn [b64_scan].
    destruct H as (J1 & J2 & J3).
    replace ((schar c <? 0) || (c =? 61)) with false.
    2:{ unfold schar. replace (c <? 128) with true by (symmetry; apply Z.ltb_lt; lia). symmetry; apply orb_false_iff; split; [apply Z.ltb_ge|apply Z.eqb_neq]; lia. }
    destruct (strchr_ix b64ev c 0) eqn:ES.
    + exfalso. apply J3. apply strchr_ev_inv; [lia|congruence].
    + rewrite S1. simpl; auto.
Qed.
Lemma scan_pad : forall l t, interspersed (61 :: l) t -> exists t', b64_scan t = (-1, t', true).
Proof.
  intros l t. remember (61 :: l) as L. intros H. revert HeqL. induction H; intros EL; [discriminate| |].
  - injection EL as -> ->. exists t. reflexivity.
  - destruct (IHinterspersed EL) as (t' & S1). cbn [b64_scan].
    destruct ((schar c <? 0) || (c =? 61)); [eauto|]. destruct H as (J1 & J2 & J3).
    destruct (strchr_ix b64ev c 0) eqn:ES; [|eauto].
    exfalso. apply J3. apply strchr_ev_inv; [lia|congruence].
Qed.
Lemma scan_nil : forall t, interspersed [] t -> exists t', b64_scan t = (-1, t', true).
Proof.
  intros t. remember (@nil Z) as L. intros H. revert HeqL. induction H; intros EL; [|discriminate|].
  - exists []. reflexivity.
  - destruct (IHinterspersed EL) as (t' & S1). cbn [b64_scan].
    destruct ((schar c <? 0) || (c =? 61)); [eauto|]. destruct H as (J1 & J2 & J3).
    destruct (strchr_ix b64ev c 0) eqn:ES; [|eauto].
    exfalso. apply J3. apply strchr_ev_inv; [lia|congruence].
Qed.

Lemma grp0 : forall c0 c1, 0 <= c0 < 64 -> 0 <= c1 < 64 ->
  to_byte (Z.lor (Z.land (Z.shiftl c0 2) 252) (Z.land (Z.shiftr c1 4) 3)) = c0 * 4 + c1 / 16.
Proof.
  intros c0 c1 H0 H1.
  replace (Z.land (Z.shiftl c0 2) 252) with (c0 * 2 ^ 2).
  2:{ symmetry. apply Z.eqb_eq. revert c0 H0. apply (range_forall 64 (fun c => Z.land (Z.shiftl c 2) 252 =? c * 2 ^ 2)). vm_compute; reflexivity. }
  change 3 with (2 ^ 2 - 1). rewrite land_pow2, shiftr_div by lia. change (2 ^ 4) with 16.
  rewrite lor_add by (try lia; change (2 ^ 2) with 4; euc). unfold to_byte. change (2 ^ 2) with 4. euc.
Qed.
Lemma grp1 : forall c1 c2, 0 <= c1 < 64 -> 0 <= c2 < 64 ->
  to_byte (Z.lor (Z.land (Z.shiftl c1 4) 240) (Z.land (Z.shiftr c2 2) 15)) = c1 mod 16 * 16 + c2 / 4.
Proof.
  intros c0 c1 H0 H1.
  replace (Z.land (Z.shiftl c0 4) 240) with (c0 mod 16 * 2 ^ 4).
  2:{ symmetry. apply Z.eqb_eq. revert c0 H0. apply (range_forall 64 (fun c => Z.land (Z.shiftl c 4) 240 =? c mod 16 * 2 ^ 4)). vm_compute; reflexivity. }
  change 15 with (2 ^ 4 - 1). rewrite land_pow2, shiftr_div by lia.
  change (2 ^ 2) with 4. rewrite lor_add by (try lia; change (2 ^ 4) with 16; euc). unfold to_byte. change (2 ^ 4) with 16. euc.
Qed.
Lemma grp2 : forall c2 c3, 0 <= c2 < 64 -> 0 <= c3 < 64 ->
  to_byte (Z.lor (Z.land (Z.shiftl c2 6) 192) (Z.land c3 63)) = c2 mod 4 * 64 + c3.
Proof.
  intros c0 c1 H0 H1.
  replace (Z.land (Z.shiftl c0 6) 192) with (c0 mod 4 * 2 ^ 6).
  2:{ symmetry. apply Z.eqb_eq. revert c0 H0. apply (range_forall 64 (fun c => Z.land (Z.shiftl c 6) 192 =? c mod 4 * 2 ^ 6)). vm_compute; reflexivity. }
  change 63 with (2 ^ 6 - 1). rewrite land_pow2 by lia. rewrite (Z.mod_small c1) by (change (2 ^ 6) with 64; lia).
  rewrite lor_add by (try lia; change (2 ^ 6) with 64; euc). unfold to_byte. change (2 ^ 6) with 64. euc.
Qed.

Ltac leb0 := repeat match goal with |- context[0 <=? ?x] =>
  replace (0 <=? x) with true by (symmetry; apply Z.leb_le; lia) end.
Lemma group_full : forall a b c, byte a -> byte b -> byte c ->
  b64_group (a / 4) (a mod 4 * 16 + b / 16) (b mod 16 * 4 + c / 64) (c mod 64) = [a; b; c].
Proof.
  intros a b c Ha Hb Hc. destruct (sextet_bounds a b c) as (S1 & S2 & S3 & S4); auto.
  unfold b64_group. leb0. cbn [andb]. rewrite grp0, grp1, grp2 by lia. unfold byte in *.
  list_eq.
Qed.
Lemma group_two : forall a b, byte a -> byte b ->
  b64_group (a / 4) (a mod 4 * 16 + b / 16) (b mod 16 * 4 + 0 / 64) (-1) = [a; b].
Proof.
  intros a b Ha Hb. destruct (sextet_bounds a b 0) as (S1 & S2 & S3 & S4); auto using byte0.
  unfold b64_group. leb0. cbn [andb]. change (0 <=? -1) with false. rewrite grp0, grp1 by lia. unfold byte in *.
  list_eq.
Qed.
Lemma group_one : forall a, byte a ->
  b64_group (a / 4) (a mod 4 * 16 + 0 / 16) (-1) (-1) = [a].
Proof.
  intros a Ha. destruct (sextet_bounds a 0 0) as (S1 & S2 & S3 & S4); auto using byte0.
  unfold b64_group. leb0. cbn [andb]. change (0 <=? -1) with false. rewrite grp0 by lia. unfold byte in *.
  list_eq.
Qed.

Lemma inter_newline : forall l t, interspersed l t -> (at_ t 0 = 10 \/ at_ t 0 = 13) ->
  Forall (fun c => b64_alpha c \/ c = 61) l -> exists c t', t = c :: t' /\ interspersed l t'.
Proof.
  intros l t H HN HL. destruct H.
  - unfold at_ in HN; simpl in HN; lia.
  - exfalso. inversion HL; subst. unfold at_ in HN; simpl in HN.
    destruct H2 as [(v & Hv & ->)|E61]; [|lia].
    destruct (b64char_plain v Hv) as (_ & P2 & P3). lia.
  - eauto.
Qed.

Lemma dec_loop_ok : forall n s, bytes s -> forall t, (length t <= n)%nat -> interspersed (rfc4648 s) t ->
  forall fuel, (length t < fuel)%nat -> b64_dec_loop fuel t = Some s.
Proof.
  induction n as [|n IH]; intros s HS t HT HI fuel HF; (destruct fuel as [|f]; [lia|]).
  - destruct t; [|simpl in HT; lia]. inversion HI as [E| |].
    destruct s as [|a [|b [|c r]]]; try discriminate. reflexivity.
  - cbn [b64_dec_loop].
    destruct ((at_ t 0 =? 10) || (at_ t 0 =? 13)) eqn:EN.
    + assert (HN : at_ t 0 = 10 \/ at_ t 0 = 13) by (apply orb_true_iff in EN; destruct EN; b2p; auto).
      destruct (inter_newline _ _ HI HN (rfc_alpha s HS)) as (c & t' & -> & HI').
      simpl skipn. apply (IH s); auto; simpl in *; lia.
    + clear EN. unfold b64_getidx at 1. cbv beta iota.
      destruct s as [|a [|b [|c r]]].
      * destruct (scan_nil _ HI) as (t1 & ->). reflexivity.
      * inversion HS as [|? ? Ha H1]; subst. cbn [rfc4648] in HI.
        replace (a * 65536) with (a * 65536 + 0 * 256 + 0) in HI by lia.
        rewrite round_spec in HI by (auto using byte0). cbn [firstn map app] in HI.
        destruct (sextet_bounds a 0 0) as (S1 & S2 & S3 & S4); auto using byte0.
        destruct (scan_alpha _ _ _ S1 HI) as (t1 & -> & I1 & L1).
        unfold b64_getidx at 1. cbv beta iota. destruct (scan_alpha _ _ _ S2 I1) as (t2 & -> & I2 & L2).
        unfold b64_getidx at 1. cbv beta iota. destruct (scan_pad _ _ I2) as (t3 & ->).
        unfold b64_getidx. cbv beta iota. rewrite group_one by auto. reflexivity.
      * inversion HS as [|? ? Ha H1]; subst; inversion H1 as [|? ? Hb H2]; subst. cbn [rfc4648] in HI.
        replace (a * 65536 + b * 256) with (a * 65536 + b * 256 + 0) in HI by lia.
        rewrite round_spec in HI by (auto using byte0). cbn [firstn map app] in HI.
        destruct (sextet_bounds a b 0) as (S1 & S2 & S3 & S4); auto using byte0.
        destruct (scan_alpha _ _ _ S1 HI) as (t1 & -> & I1 & L1).
        unfold b64_getidx at 1. cbv beta iota. destruct (scan_alpha _ _ _ S2 I1) as (t2 & -> & I2 & L2).
        unfold b64_getidx at 1. cbv beta iota. destruct (scan_alpha _ _ _ S3 I2) as (t3 & -> & I3 & L3).
        unfold b64_getidx. cbv beta iota. destruct (scan_pad _ _ I3) as (t4 & ->).
        rewrite group_two by auto. reflexivity.
      * inversion HS as [|? ? Ha H1]; subst; inversion H1 as [|? ? Hb H2]; subst;
          inversion H2 as [|? ? Hc H3]; subst. cbn [rfc4648] in HI.
        rewrite round_spec in HI by auto. cbn [map app] in HI.
        destruct (sextet_bounds a b c) as (S1 & S2 & S3 & S4); auto.
        destruct (scan_alpha _ _ _ S1 HI) as (t1 & -> & I1 & L1).
        unfold b64_getidx at 1. cbv beta iota. destruct (scan_alpha _ _ _ S2 I1) as (t2 & -> & I2 & L2).
        unfold b64_getidx at 1. cbv beta iota. destruct (scan_alpha _ _ _ S3 I2) as (t3 & -> & I3 & L3).
        unfold b64_getidx. cbv beta iota. destruct (scan_alpha _ _ _ S4 I3) as (t4 & -> & I4 & L4).
        rewrite group_full by auto. rewrite (IH r) by (auto; lia). reflexivity.
Qed.

Lemma inter_refl : forall l, interspersed l l. Proof. induction l; constructor; auto. Qed.
Lemma inter_app : forall l t l' t', interspersed l t -> interspersed l' t' -> interspersed (l ++ l') (t ++ t').
Proof. induction 1; intros; simpl; auto; constructor; auto. Qed.
Lemma newline_junk : b64_junk 10.
Proof. repeat split; try lia. intros (v & Hv & E). destruct (b64char_plain v Hv) as (_ & P & _). congruence. Qed.
Lemma lines72_inter : forall l o, lines72 l o -> interspersed l o.
Proof.
  induction 1; [apply inter_refl|]. apply inter_app; [apply inter_refl|]. simpl. apply is_junk; auto using newline_junk.
Qed.

(** Termination of the decoder on every input *)
Lemma scan_len : forall p i q e, b64_scan p = (i, q, e) -> (length q <= length p)%nat /\ (e = false -> (length q < length p)%nat).
Proof.
  induction p as [|c p IH]; intros i q e H; cbn [b64_scan] in H; [injection H as <- <- <-; split; [auto|discriminate]|].
  destruct (_ || _); [injection H as <- <- <-; simpl; split; [lia|discriminate]|].
  destruct (strchr_ix _ _ _); [injection H as <- <- <-; simpl; split; lia|].
  apply IH in H. simpl; intuition lia.
Qed.
Lemma dec_total : forall fuel t, (length t < fuel)%nat -> exists o, b64_dec_loop fuel t = Some o.
Proof.
  induction fuel as [|f IH]; intros t H; [lia|]. cbn [b64_dec_loop].
  destruct (_ || _) eqn:EN.
  - apply IH. destruct t; [unfold at_ in EN; discriminate|]. simpl in *; lia.
  - destruct (b64_getidx t false) as [[c0 t1] e1] eqn:E1.
    destruct (b64_getidx t1 e1) as [[c1 t2] e2] eqn:E2.
    destruct (b64_getidx t2 e2) as [[c2 t3] e3] eqn:E3.
    destruct (b64_getidx t3 e3) as [[c3 t4] e4] eqn:E4.
    destruct e4; [eauto|].
    unfold b64_getidx in *.
    destruct e3; [congruence|]. destruct e2; [congruence|]. destruct e1; [congruence|].
    apply scan_len in E1, E2, E3, E4. destruct E1, E2, E3, E4. specialize (H1 eq_refl).
    destruct (IH t4) as (o & ->); [lia|]. simpl. eauto.
Qed.
