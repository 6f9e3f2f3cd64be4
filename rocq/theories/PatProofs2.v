(** The proofs about reading a whole pattern. *)
From Coq Require Import ZArith List Bool Lia.
From Verif Require Import NfaModel NfaSpec PatModel PatSpec PatProofs.
Import ListNotations.
Open Scope Z_scope.

(** ** Counts *)

Lemma isdigit_iff c : isdigit c = true <-> 48 <= c <= 57.
Proof. unfold isdigit. rewrite andb_true_iff, !Z.leb_le. tauto. Qed.

Definition val_from (v : Z) (ds : list Z) : Z := fold_left (fun v d => 10 * v + (d - 48)) ds v.

Lemma val_from_ge ds : forall v, 0 <= v -> Forall (fun d => 48 <= d <= 57) ds -> v <= val_from v ds.
Proof.
  induction ds as [|d ds IH]; intros v V F; cbn [val_from fold_left]; [lia|]. inversion F; subst.
  fold (val_from (10 * v + (d - 48)) ds). specialize (IH (10 * v + (d - 48)) ltac:(lia) ltac:(assumption)). lia.
Qed.

Lemma count_digits_ok : forall ds v rest, 0 <= v -> ds <> [] -> Forall (fun d => 48 <= d <= 57) ds -> val_from v ds <= 255 ->
  isdigit (head rest) = false -> count_digits (ds ++ rest) v = (val_from v ds, rest).
Proof.
  induction ds as [|d ds IH]; intros v rest V N F Le R; [congruence|]. inversion F as [|? ? D F']; subst.
  cbn [app count_digits]. cbn [val_from fold_left] in Le |- *. fold (val_from (10 * v + (d - 48)) ds) in *.
  pose proof (val_from_ge ds (10 * v + (d - 48)) ltac:(lia) F') as G.
  assert (L1 : (255 <? 10 * v + (d - 48)) = false) by (apply Z.ltb_ge; lia). rewrite L1, orb_false_r.
  destruct ds as [|d2 ds].
  - cbn [app val_from fold_left]. now rewrite R.
  - cbn [app head hd]. inversion F' as [|? ? D2 _]; subst. assert (Q : isdigit d2 = true) by (now apply isdigit_iff). rewrite Q. cbn [negb].
    change (d2 :: ds ++ rest) with ((d2 :: ds) ++ rest). apply IH; auto; [lia|discriminate].
Qed.

Lemma dup_count_ok ds rest : number_ok ds -> isdigit (head rest) = false -> dup_count (ds ++ rest) = (value ds, rest).
Proof.
  intros (N & F & Le) R. unfold dup_count. destruct ds as [|d ds]; [congruence|]. inversion F as [|? ? D F']; subst.
  cbn [app head hd]. assert (Q : isdigit d = true) by (now apply isdigit_iff). rewrite Q.
  change (d :: ds ++ rest) with ((d :: ds) ++ rest). apply count_digits_ok; auto. lia.
Qed.

Lemma number_nonneg ds : number_ok ds -> 0 <= value ds.
Proof. intros (_ & F & _). exact (val_from_ge ds 0 ltac:(lia) F). Qed.

Definition d_min (d : times_of) : Z := match d with Star | Opt => 0 | Plus => 1 | Exactly n | From n | Between n _ => value n end.
Definition d_max (d : times_of) : Z := match d with Star | Plus | From _ => -1 | Opt => 1 | Exactly n => value n | Between _ m => value m end.

Lemma dup_ok d rest : wf_times d ->
  match d with Star | Plus | Opt => True | _ => dup (tl (pr_times d) ++ rest) = Ok (d_min d, d_max d, rest) end.
Proof.
  destruct d as [| | |n|n|n m]; cbn [wf_times]; auto; intros W; cbn [pr_times app tl]; unfold dup.
  - rewrite <- app_assoc. rewrite dup_count_ok by (assumption || reflexivity). cbn [app head hd Z.eqb Pos.eqb]. pose proof (number_nonneg n W). destruct W as (_ & _ & W).
    replace (value n <? value n) with false by (symmetry; apply Z.ltb_irrefl). replace (255 <? value n) with false by (symmetry; apply Z.ltb_ge; lia).
    replace (value n <? 0) with false by (symmetry; apply Z.ltb_ge; lia). reflexivity.
  - rewrite <- app_assoc. rewrite dup_count_ok by (assumption || reflexivity). cbn [app head hd tl Z.eqb Pos.eqb]. unfold dup_count at 1. cbn [head hd isdigit]. change (isdigit 125) with false. cbn iota.
    pose proof (number_nonneg n W). destruct W as (_ & _ & W). cbn [d_min d_max].
    replace (-1 <? value n) with true by (symmetry; apply Z.ltb_lt; lia). replace (255 <? value n) with false by (symmetry; apply Z.ltb_ge; lia).
    replace (value n <? 0) with false by (symmetry; apply Z.ltb_ge; lia). reflexivity.
  - destruct W as (Wn & Wm & Le). rewrite <- !app_assoc. rewrite dup_count_ok by (assumption || reflexivity). cbn [app head hd tl Z.eqb Pos.eqb].
    rewrite <- app_assoc, dup_count_ok by (assumption || reflexivity). pose proof (number_nonneg n Wn). pose proof (number_nonneg m Wm). destruct Wn as (_ & _ & Wn), Wm as (_ & _ & Wm). cbn [d_min d_max].
    replace (value m <? value n) with false by (symmetry; apply Z.ltb_ge; lia). replace (255 <? value n) with false by (symmetry; apply Z.ltb_ge; lia).
    replace (255 <? value m) with false by (symmetry; apply Z.ltb_ge; lia). replace (value n <? 0) with false by (symmetry; apply Z.ltb_ge; lia). reflexivity.
Qed.

(** ** Hexadecimal *)

Lemma hexval_all : forallb (fun h => let z := Z.of_nat h in if (48 <=? z) && (z <=? 57) || (65 <=? z) && (z <=? 70) || (97 <=? z) && (z <=? 102) then hexval z =? hex_value z else true) (seq 0 128) = true.
Proof. vm_compute. reflexivity. Qed.
Lemma hexval_ok h : is_hex h -> hexval h = hex_value h /\ 0 <= hex_value h <= 15.
Proof.
  intros H. split.
  - pose proof (proj1 (forallb_forall _ _) hexval_all (Z.to_nat h)) as Q. cbv beta zeta in Q. rewrite Z2Nat.id in Q by (unfold is_hex in H; lia).
    specialize (Q ltac:(apply in_seq; unfold is_hex in H; lia)).
    replace ((48 <=? h) && (h <=? 57) || (65 <=? h) && (h <=? 70) || (97 <=? h) && (h <=? 102)) with true in Q.
    { now apply Z.eqb_eq in Q. }
    symmetry. rewrite !orb_true_iff, !andb_true_iff, !Z.leb_le. unfold is_hex in H. lia.
  - unfold hex_value, is_hex in *. destruct (h <=? 57) eqn:A; b2p; [lia|]. destruct (h <=? 70) eqn:B; b2p; lia.
Qed.

Definition hexs_from (v : Z) (hs : list Z) : Z := fold_left (fun v h => 16 * v + hex_value h) hs v.
Lemma hexs_from_ge hs : forall v, 0 <= v -> Forall is_hex hs -> v <= hexs_from v hs.
Proof.
  induction hs as [|h hs IH]; intros v V F; cbn [hexs_from fold_left]; [lia|]. inversion F as [|? ? H F']; subst. destruct (hexval_ok h H) as [_ R].
  fold (hexs_from (16 * v + hex_value h) hs). specialize (IH (16 * v + hex_value h) ltac:(lia) F'). lia.
Qed.
Lemma hex_digits_ok : forall hs n v rest, 0 <= v -> (length hs <= n)%nat -> Forall is_hex hs -> hexs_from v hs <= char_max ->
  n = length hs \/ hexval (head rest) < 0 -> hex_digits n (hs ++ rest) v = (hexs_from v hs, rest).
Proof.
  induction hs as [|h hs IH]; intros n v rest V Ln F Le R; cbn [app].
  - cbn [hexs_from fold_left length] in *. destruct n as [|n]; cbn [hex_digits]; [reflexivity|]. destruct R as [R|R]; [discriminate|].
    unfold char_max in Le. replace (v <? 1114112) with true by (symmetry; apply Z.ltb_lt; lia). apply Z.ltb_lt in R. now rewrite R.
  - inversion F as [|? ? H F']; subst. destruct n as [|n]; [cbn in Ln; lia|]. destruct (hexval_ok h H) as [Hv Hr].
    cbn [hexs_from fold_left] in Le |- *. fold (hexs_from (16 * v + hex_value h) hs) in *.
    pose proof (hexs_from_ge hs (16 * v + hex_value h) ltac:(lia) F') as G. cbn [hex_digits head hd tl]. rewrite Hv.
    replace (v <? 1114112) with true by (symmetry; apply Z.ltb_lt; unfold char_max in *; lia).
    replace (hex_value h <? 0) with false by (symmetry; apply Z.ltb_ge; lia).
    apply IH; auto; [lia|cbn in Ln; lia|]. destruct R as [R|R]; [left; cbn in R; lia|right; exact R].
Qed.

(** ** Atoms *)

Definition set_built (L : loc) (neg : bool) (ts : list bterm) (p : pat) : Prop :=
  exists s ss, p = PSet s ss
    /\ (filter is_class ts = [] -> forall it, In it (s :: ss) -> i_cls it = 0 /\ i_neg it = [])
    /\ forall x, is_char x -> ((exists it, In it (s :: ss) /\ in_item (l_env L) it x) <-> in_set L neg ts x).

Definition simple_built (L : loc) (a : simple) (p : pat) : Prop :=
  match a with
  | Chr c | Ctl _ c => p = literal L c
  | Esc c => p = one c c
  | Hex2 a b => p = one (16 * hex_value a + hex_value b) (16 * hex_value a + hex_value b)
  | Hexs hs => p = one (hexs_value hs) (hexs_value hs)
  | Dot => p = if newline (l_env L) then PAlt (one 0 9) (one 11 char_max) else one 0 char_max
  | At a => p = PAt a
  | Set_ neg ts => set_built L neg ts p
  | Cls k => exists neg ts, cls_terms k = Some (neg, ts) /\ set_built L neg ts p
  end.

Lemma cls_macro k neg ts : cls_terms k = Some (neg, ts) -> macro k = Some ([91] ++ pr_set neg ts).
Proof.
  unfold cls_terms, macro. destruct (k =? 119) eqn:E1; [b2p; subst; intros [= <- <-]; reflexivity|]. destruct (k =? 87) eqn:E2; [b2p; subst; intros [= <- <-]; reflexivity|].
  destruct (k =? 115) eqn:E3; [b2p; subst; intros [= <- <-]; reflexivity|]. destruct (k =? 83) eqn:E4; [b2p; subst; intros [= <- <-]; reflexivity|].
  destruct (k =? 100) eqn:E5; [b2p; subst; intros [= <- <-]; reflexivity|]. destruct (k =? 68) eqn:E6; [b2p; subst; intros [= <- <-]; reflexivity|]. discriminate.
Qed.

Lemma bracket_built L neg ts rest : sane L -> wf_set L neg ts ->
  exists p, bracket L (pr_set neg ts ++ rest) = Ok (p, rest) /\ set_built L neg ts p.
Proof. intros S W. destruct (bracket_ok L neg ts rest S W) as (s & ss & E & A & B). exists (PSet s ss). split; [exact E|]. exists s, ss. auto. Qed.

Lemma plain_atom_chr L c r : special c = false -> plain_atom L (c :: r) = Ok (literal L c, r).
Proof.
  unfold special. cbn [existsb]. rewrite !orb_false_iff. intros H. decompose [and] H. cbn [plain_atom].
  repeat match goal with H : (c =? _) = false |- _ => rewrite H; clear H end. reflexivity.
Qed.

Lemma atom_ok L a rest : sane L -> wf_simple L a -> exists p, atom L (pr_simple a ++ rest) = Ok (p, rest) /\ simple_built L a p.
Proof.
  intros S W. destruct a as [c|c|k c|h1 h2|hs| |a|neg ts|k]; cbn [wf_simple pr_simple app] in *.
  - destruct W as [I Sp]. exists (literal L c). split; [|reflexivity]. unfold atom. cbn [head hd].
    assert (N : (c =? 92) = false) by (unfold special in Sp; cbn [existsb] in Sp; rewrite !orb_false_iff in Sp; tauto). rewrite N. now apply plain_atom_chr.
  - destruct W as [R E]. exists (one c c). split; [|reflexivity]. unfold atom. cbn [head hd tl Z.eqb Pos.eqb escape].
    unfold escapes in E. cbn [existsb] in E. rewrite !orb_false_iff in E. decompose [and] E. clear E.
    unfold macro. repeat match goal with H : (c =? _) = false |- _ => rewrite H; clear H end.
    rewrite H0. replace (128 <=? c) with false by (symmetry; apply Z.leb_gt; lia). reflexivity.
  - exists (literal L c). split; [|reflexivity]. unfold atom. cbn [head hd tl Z.eqb Pos.eqb escape].
    unfold controls in W. cbn [In] in W.
    repeat (destruct W as [W|W]; [injection W as <- <-; unfold macro; cbn [Z.eqb Pos.eqb]; rewrite plain_atom_chr by reflexivity; reflexivity|]). destruct W.
  - destruct W as [W1 W2]. eexists. split; [|reflexivity]. unfold atom. cbn [head hd tl Z.eqb Pos.eqb escape]. unfold macro. cbn [Z.eqb Pos.eqb].
    assert (N : (h1 =? 123) = false) by (apply Z.eqb_neq; unfold is_hex in W1; lia). rewrite N.
    change (h1 :: h2 :: rest) with ([h1; h2] ++ rest).
    rewrite (hex_digits_ok [h1; h2] 2 0 rest); [|lia|cbn; lia|apply Forall_cons; [assumption|apply Forall_cons; [assumption|apply Forall_nil]]| |left; reflexivity].
    + cbn [hexs_from fold_left]. reflexivity.
    + cbn [hexs_from fold_left]. destruct (hexval_ok h1 W1), (hexval_ok h2 W2). unfold char_max. lia.
  - destruct W as (W1 & W2 & W3). eexists. split; [|reflexivity]. unfold atom. cbn [head hd tl Z.eqb Pos.eqb escape]. unfold macro. cbn [Z.eqb Pos.eqb head hd tl].
    rewrite <- app_assoc. rewrite (hex_digits_ok hs 8 0 ([125] ++ rest)); [|lia|exact W1|exact W2|exact W3|right; reflexivity]. reflexivity.
  - eexists. split; [|reflexivity]. unfold atom. cbn [head hd Z.eqb Pos.eqb plain_atom]. destruct (newline _); reflexivity.
  - exists (PAt a). split; [|reflexivity]. destruct a; reflexivity.
  - destruct (bracket_built L neg ts rest S W) as (p & E & B). exists p. split; [|exact B]. exact E.
  - destruct W as (neg & ts & K & W). destruct (bracket_built L neg ts [] S W) as (p & E & B). exists p. split; [|exists neg, ts; auto].
    unfold atom. cbn [head hd tl Z.eqb Pos.eqb escape]. rewrite (cls_macro k neg ts K). rewrite app_nil_r in E. cbn [app plain_atom Z.eqb Pos.eqb]. now rewrite E.
Qed.

(** ** The tree of a pattern *)

Fixpoint built (L : loc) (r : rx) (n : node) : Prop :=
  match r with
  | XEmpty => n = (PEmpty, false)
  | XSimple a => snd n = false /\ simple_built L a (fst n)
  | XGroup r => exists m, built L r m /\ n = marksub m
  | XTimes r d => exists m, built L r m /\ n = (PRep (d_min d) (d_max d) (fst m), false)
  | XCat x y => exists a b, built L x a /\ built L y b /\ n = (PCat (fst a) (fst b), false)
  | XOr x y => exists a b, built L x a /\ built L y b /\ n = (PAlt (fst a) (fst b), false)
  end.

(** A character that begins a piece. *)
Definition opens (c : Z) : bool := negb (existsb (Z.eqb c) [0; 41; 42; 43; 63; 123; 124]).

Lemma simple_opens L a : wf_simple L a -> exists c s, pr_simple a = c :: s /\ opens c = true /\ c <> 40.
Proof.
  destruct a as [c|c|k c|h1 h2|hs| |a|neg ts|k]; cbn [wf_simple pr_simple app]; intros W;
    try (eexists; eexists; split; [reflexivity|split; [reflexivity|discriminate]]).
  - destruct W as [I Sp]. exists c, []. split; [reflexivity|]. unfold special in Sp. cbn [existsb] in Sp. rewrite !orb_false_iff in Sp. decompose [and] Sp.
    split; [|now apply Z.eqb_neq]. unfold opens. cbn [existsb].
    repeat match goal with H : (c =? _) = false |- _ => rewrite H; clear H end. unfold is_char in I. replace (c =? 0) with false by (symmetry; apply Z.eqb_neq; lia). reflexivity.
  - destruct a; eexists; eexists; (split; [reflexivity|split; [reflexivity|discriminate]]).
Qed.
Lemma piece_opens L r : piece r -> wf L r -> exists c s, pr r = c :: s /\ opens c = true.
Proof.
  induction r as [|a|r IH|r IH d|x IHx y IHy|x IHx y IHy]; intros P W; try destruct P.
  - destruct (simple_opens L a W) as (c & s & E & O & _). exists c, s. auto.
  - eexists; eexists; split; [reflexivity|reflexivity].
  - destruct W as (P & W & _). destruct (IH P W) as (c & s & E & O). exists c, (s ++ pr_times d). cbn [pr]. rewrite E. auto.
Qed.

Lemma opens_not c : opens c = true -> (c =? 41) = false /\ (c =? 42) = false /\ (c =? 43) = false /\ (c =? 63) = false /\ (c =? 123) = false /\ (c =? 124) = false.
Proof. unfold opens. cbn [existsb]. rewrite negb_true_iff, !orb_false_iff. tauto. Qed.

(** ** Reading it *)

Definition ends (stack : list (option node * option node)) (rest : list Z) : Prop :=
  rest = [] \/ head rest = 124 \/ (head rest = 41 /\ stack <> []).

Definition reads_piece (L : loc) (r : rx) : Prop := forall stack u b rest, exists n k, built L r n /\
  forall fuel, parse L (k + fuel) stack u b None (pr r ++ rest) = parse L fuel stack u b (Some n) rest.
Definition reads_branch (L : loc) (r : rx) : Prop := forall stack u rest, (r = XEmpty -> ends stack rest) -> exists n b' n' k, built L r n /\ cat b' n' = n /\
  forall fuel, parse L (k + fuel) stack u None None (pr r ++ rest) = parse L fuel stack u b' (Some n') rest.
Definition reads_all (L : loc) (r : rx) : Prop := forall stack rest, ends stack rest -> exists n u' b' n' k, built L r n /\ union u' (cat b' n') = n /\
  forall fuel, parse L (k + fuel) stack None None None (pr r ++ rest) = parse L fuel stack u' b' (Some n') rest.

Lemma piece_branch L r : r <> XEmpty -> reads_piece L r -> reads_branch L r.
Proof. intros N P stack u rest _. destruct (P stack u None rest) as (n & k & B & E). exists n, None, n, k. auto. Qed.

Lemma dup_step L d stack u b n rest : wf_times d -> forall fuel,
  parse L (S fuel) stack u b (Some n) (pr_times d ++ rest) = parse L fuel stack u b (Some (PRep (d_min d) (d_max d) (fst n), false)) rest.
Proof.
  intros W fuel. pose proof (dup_ok d rest W) as D. destruct d; try reflexivity; cbn [pr_times] in *; cbn [app tl] in D |- *; cbn [parse head hd Z.eqb Pos.eqb tl]; rewrite D; reflexivity.
Qed.

(** Past the end of a piece, at the beginning of another one. *)
Lemma next_step L stack u b n c s : opens c = true -> forall fuel,
  parse L (S fuel) stack u b (Some n) (c :: s) = parse L fuel stack u (Some (cat b n)) None (c :: s).
Proof.
  intros O fuel. apply opens_not in O as (A & B & C & D & E & F). cbn [parse head hd]. rewrite B, C, D, E, F.
  destruct stack as [|[u0 b0] st]; [reflexivity|]. rewrite A. reflexivity.
Qed.

Lemma simple_step L a stack u b rest : sane L -> wf_simple L a -> exists p, simple_built L a p /\ forall fuel,
  parse L (S fuel) stack u b None (pr_simple a ++ rest) = parse L fuel stack u b (Some (p, false)) rest.
Proof.
  intros S W. destruct (atom_ok L a rest S W) as (p & E & B). exists p. split; [exact B|]. intros fuel.
  destruct (simple_opens L a W) as (c & s & E1 & O & N). rewrite E1 in *. cbn [app] in *. cbn [parse]. cbn [head hd].
  apply Z.eqb_neq in N. rewrite N. apply opens_not in O as (O & _). rewrite O. cbn [andb]. rewrite E. reflexivity.
Qed.

Lemma reads L r : sane L -> wf L r -> (piece r -> reads_piece L r) /\ (branch r -> reads_branch L r) /\ reads_all L r.
Proof.
  intros S. induction r as [|a|r IH|r IH d|x IHx y IHy|x IHx y IHy]; intros W; cbn [wf] in W.
  - assert (B : reads_branch L XEmpty).
    { intros stack u rest EN. specialize (EN eq_refl). exists (PEmpty, false), None, (PEmpty, false), 1%nat. split; [reflexivity|]. split; [reflexivity|].
      intros fuel. cbn [pr app Nat.add parse]. destruct EN as [->|[H|[H N]]].
      - reflexivity.
      - rewrite H. cbn [Z.eqb Pos.eqb andb]. unfold atom. rewrite H. cbn [Z.eqb Pos.eqb]. destruct rest as [|c r]; [discriminate|]. cbn [head hd] in H. subst c. reflexivity.
      - rewrite H. cbn [Z.eqb Pos.eqb andb]. destruct stack; [congruence|]. reflexivity. }
    split; [intros []|]. split; [auto|]. intros stack rest EN. destruct (B stack None rest ltac:(auto)) as (n & b' & n' & k & A1 & A2 & A3). exists n, None, b', n', k. auto.
  - assert (P : reads_piece L (XSimple a)).
    { intros stack u b rest. destruct (simple_step L a stack u b rest S W) as (p & B & E). exists (p, false), 1%nat. split; [cbn; auto|exact E]. }
    assert (B : reads_branch L (XSimple a)) by (apply piece_branch; [discriminate|exact P]).
    split; [auto|]. split; [auto|]. intros stack rest EN. destruct (B stack None rest ltac:(discriminate)) as (n & b' & n' & k & A1 & A2 & A3). exists n, None, b', n', k. auto.
  - destruct (IH W) as (_ & _ & A).
    assert (P : reads_piece L (XGroup r)).
    { intros stack u b rest. destruct (A ((u, b) :: stack) (41 :: rest)) as (n & u' & b' & n' & k & B & Un & E); [right; right; split; [reflexivity|discriminate]|].
      exists (marksub n), (Datatypes.S (k + 1)). split; [cbn; eauto|]. intros fuel. cbn [pr app Nat.add]. rewrite <- app_assoc. cbn [app].
      cbn [parse head hd Z.eqb Pos.eqb tl]. rewrite <- Nat.add_assoc, E. cbn [Nat.add parse head hd Z.eqb Pos.eqb]. rewrite Un. reflexivity. }
    assert (B : reads_branch L (XGroup r)) by (apply piece_branch; [discriminate|exact P]).
    split; [auto|]. split; [auto|]. intros stack rest EN. destruct (B stack None rest ltac:(discriminate)) as (n & b' & n' & k & A1 & A2 & A3). exists n, None, b', n', k. auto.
  - destruct W as (Pr & W & Wd). destruct (IH W) as (A & _). specialize (A Pr).
    assert (P : reads_piece L (XTimes r d)).
    { intros stack u b rest. destruct (A stack u b (pr_times d ++ rest)) as (n & k & B & E).
      exists (PRep (d_min d) (d_max d) (fst n), false), (k + 1)%nat. split; [cbn; eauto|]. intros fuel. cbn [pr]. rewrite <- app_assoc, <- Nat.add_assoc, E.
      apply dup_step. exact Wd. }
    assert (B : reads_branch L (XTimes r d)) by (apply piece_branch; [discriminate|exact P]).
    split; [auto|]. split; [auto|]. intros stack rest EN. destruct (B stack None rest ltac:(discriminate)) as (n & b' & n' & k & A1 & A2 & A3). exists n, None, b', n', k. auto.
  - destruct W as (Bx & Nx & Py & Wx & Wy). destruct (IHx Wx) as (_ & Rx & _). destruct (IHy Wy) as (Ry & _). specialize (Rx Bx). specialize (Ry Py).
    assert (B : reads_branch L (XCat x y)).
    { intros stack u rest _. destruct (Rx stack u (pr y ++ rest)) as (n & b' & n' & k & A1 & A2 & A3); [congruence|].
      destruct (Ry stack u (Some n) rest) as (m & k2 & B1 & B2).
      exists (PCat (fst n) (fst m), false), (Some n), m, (k + (1 + k2))%nat. split; [cbn; eauto|]. split; [reflexivity|].
      intros fuel. cbn [pr]. rewrite <- app_assoc, <- Nat.add_assoc, A3. destruct (piece_opens L y Py Wy) as (c & s & E & O).
      rewrite <- B2. rewrite E. cbn [app]. cbn [Nat.add]. rewrite next_step by exact O. rewrite A2. reflexivity. }
    split; [intros []|]. split; [auto|]. intros stack rest EN. destruct (B stack None rest ltac:(discriminate)) as (n & b' & n' & k & A1 & A2 & A3). exists n, None, b', n', k. auto.
  - destruct W as (By & Wx & Wy). destruct (IHx Wx) as (_ & _ & Rx). destruct (IHy Wy) as (_ & Ry & _). specialize (Ry By).
    split; [intros []|]. split; [intros []|]. intros stack rest EN.
    destruct (Rx stack (124 :: pr y ++ rest)) as (n & u' & b' & n' & k & A1 & A2 & A3); [right; left; reflexivity|].
    destruct (Ry stack (Some n) rest) as (m & b2 & m' & k2 & B1 & B2 & B3); [auto|].
    exists (PAlt (fst n) (fst m), false), (Some n), b2, m', (k + (1 + k2))%nat. split; [cbn; eauto|]. split; [rewrite B2; reflexivity|].
    intros fuel. cbn [pr app]. rewrite <- app_assoc. cbn [app]. rewrite <- Nat.add_assoc, A3. cbn [Nat.add parse head hd Z.eqb Pos.eqb tl]. rewrite A2. apply B3.
Qed.

(** ** Fuel *)

Lemma parse_mono L : forall f g stack u b cur s, parse L f stack u b cur s <> Err Fuel -> parse L (f + g) stack u b cur s = parse L f stack u b cur s.
Proof.
  induction f as [|f IH]; intros g stack u b cur s H; [cbn in H; congruence|]. cbn [Nat.add parse] in *.
  destruct cur as [n|].
  - destruct (head s =? 42); [now apply IH|]. destruct (head s =? 43); [now apply IH|]. destruct (head s =? 63); [now apply IH|].
    destruct (head s =? 123); [destruct (dup (tl s)) as [[[mn mx] s']|]; [now apply IH|reflexivity]|].
    destruct (head s =? 124); [now apply IH|]. destruct s as [|c r]; [destruct stack; reflexivity|]. destruct stack as [|[u0 b0] st]; [now apply IH|]. destruct (c =? 41); now apply IH.
  - destruct (head s =? 40); [now apply IH|]. destruct ((head s =? 41) && _); [now apply IH|]. destruct (atom L s) as [[n s']|]; [now apply IH|reflexivity].
Qed.

Definition stops (s : list Z) (stack : list (option node * option node)) : bool :=
  match s with [] => true | c :: _ => existsb (Z.eqb c) [42; 43; 63; 123; 124] || ((c =? 41) && negb (match stack with [] => true | _ => false end)) end.
Definition measure (cur : option node) (s : list Z) (stack : list (option node * option node)) : nat :=
  2 * length s + match cur with None => if stops s stack then 1 else 0 | Some _ => if stops s stack then 0 else 1 end.
Lemma measure_le cur s stack : (measure cur s stack <= 2 * length s + 1)%nat.
Proof. unfold measure. destruct cur, (stops s stack); lia. Qed.

Lemma count_digits_len : forall s n, (length (snd (count_digits s n)) <= length s)%nat.
Proof. induction s as [|c r IH]; intros n; cbn [count_digits]; [cbn; lia|]. destruct (_ || _); cbn [snd length]; [lia|]. specialize (IH (10 * n + (c - 48))). lia. Qed.
Lemma dup_count_len s : (length (snd (dup_count s)) <= length s)%nat.
Proof. unfold dup_count. destruct (isdigit (head s)); [apply count_digits_len|cbn; lia]. Qed.
Lemma tl_len (s : list Z) : (length (tl s) <= length s)%nat.
Proof. destruct s; cbn; lia. Qed.
Lemma dup_len s mn mx s' : dup s = Ok (mn, mx, s') -> (length s' <= length s)%nat.
Proof.
  unfold dup. pose proof (dup_count_len s) as A. destruct (dup_count s) as [n s1]. cbn [snd] in A.
  destruct (head s1 =? 44).
  - pose proof (dup_count_len (tl s1)) as B. destruct (dup_count (tl s1)) as [m s2]. cbn [snd] in B. pose proof (tl_len s1). pose proof (tl_len s2).
    destruct (_ || _ || _ || _ || _); [discriminate|]. intros [= _ _ <-]. lia.
  - pose proof (tl_len s1). destruct (_ || _ || _ || _ || _); [discriminate|]. intros [= _ _ <-]. lia.
Qed.
Lemma class_name_len : forall n s nm r, class_name n s = Some (nm, r) -> (length r <= length s)%nat.
Proof.
  induction n as [|n IH]; intros s nm r H; cbn [class_name] in H; [discriminate|]. destruct s as [|c s]; [discriminate|].
  destruct (c =? 58); [injection H as _ <-; cbn; lia|]. destruct (class_name n s) as [[nm' r']|] eqn:E; [|discriminate]. injection H as _ <-. apply IH in E. cbn. lia.
Qed.
Lemma term_len L s lo hi cls r : term L s = Ok (lo, hi, cls, r) -> (length r < length s)%nat.
Proof.
  destruct s as [|c s]; cbn [term]; [discriminate|]. destruct (_ && (head s =? 58)).
  - destruct (class_name 14 (tl s)) as [[nm r']|] eqn:E; [|discriminate]. apply class_name_len in E. pose proof (tl_len s). pose proof (tl_len r').
    destruct (_ || _); [discriminate|]. intros [= _ _ _ <-]. cbn. lia.
  - destruct (_ && _).
    + destruct (tl s) as [|d r'] eqn:E; [discriminate|]. destruct (d <? c); [discriminate|]. intros [= _ _ _ <-]. pose proof (tl_len s). rewrite E in *. cbn in *. lia.
    + intros [= _ _ _ <-]. cbn. lia.
Qed.
Lemma terms_len L neg : forall fuel fst s ls nc ls' nc' r, terms L fuel neg fst s ls nc = Ok (ls', nc', r) -> (length r <= length s)%nat.
Proof.
  induction fuel as [|fuel IH]; intros fst s ls nc ls' nc' r H; cbn [terms] in H; [discriminate|]. destruct s as [|c s]; [discriminate|].
  destruct ((c =? 93) && _); [injection H as _ _ <-; cbn; lia|]. destruct (_ && _ && _ && _); [discriminate|]. destruct ((c =? 91) && _); [discriminate|].
  destruct (term L (c :: s)) as [[[[lo hi] cls] rest]|] eqn:T; [|discriminate]. apply term_len in T.
  destruct (_ && neg).
  - destruct (64 <=? _); [discriminate|]. apply IH in H. lia.
  - destruct (new_lit _ _); [|discriminate]. destruct (_ && _); [|apply IH in H; lia]. destruct (add_icase _ _ _ _); [|discriminate]. apply IH in H. lia.
Qed.
Lemma terms_fuel L neg : forall fuel fst s ls nc, (length s < fuel)%nat -> terms L fuel neg fst s ls nc <> Err Fuel.
Proof.
  induction fuel as [|fuel IH]; intros fst s ls nc H; [lia|]. cbn [terms]. destruct s as [|c s]; [discriminate|].
  destruct ((c =? 93) && _); [discriminate|]. destruct (_ && _ && _ && _); [discriminate|]. destruct ((c =? 91) && _); [discriminate|].
  destruct (term L (c :: s)) as [[[[lo hi] cls] rest]|e] eqn:T.
  - apply term_len in T. destruct (_ && neg).
    + destruct (64 <=? _); [discriminate|]. apply IH. lia.
    + destruct (new_lit _ _); [|discriminate]. destruct (_ && _); [|apply IH; lia]. destruct (add_icase _ _ _ _); [|discriminate]. apply IH. lia.
  - intros [= ->]. revert T. clear. cbn [term]. destruct (_ && (head s =? 58)).
    + destruct (class_name _ _) as [[nm r']|]; [|discriminate]. destruct (_ || _); discriminate.
    + destruct (_ && _); [|discriminate]. destruct (tl s); [discriminate|]. destruct (_ <? _); discriminate.
Qed.
Lemma bracket_len L s p r : bracket L s = Ok (p, r) -> (length r <= length s)%nat.
Proof.
  unfold bracket. destruct (terms L _ _ _ _ _ _) as [[[ls neg] rest]|] eqn:T; [|discriminate]. apply terms_len in T.
  assert (Q : (length rest <= length s)%nat) by (destruct (head s =? 94); [pose proof (tl_len s)|]; lia).
  match goal with |- context [match ?y with Some _ => _ | None => Err ESpace end] => destruct y as [[|? ?]|] end; try discriminate. intros [= _ <-]. exact Q.
Qed.
Lemma bracket_fuel L s : bracket L s <> Err Fuel.
Proof.
  unfold bracket. destruct (terms L _ _ _ _ _ _) as [[[ls neg] rest]|e] eqn:T.
  - match goal with |- context [match ?y with Some _ => _ | None => Err ESpace end] => destruct y as [[|? ?]|] end; discriminate.
  - intros [= ->]. revert T. apply terms_fuel. lia.
Qed.
Lemma hex_digits_len : forall n s v, (length (snd (hex_digits n s v)) <= length s)%nat.
Proof.
  induction n as [|n IH]; intros s v; cbn [hex_digits]; [cbn; lia|]. destruct (_ <? _); [|cbn; lia]. destruct (_ <? _); [cbn; lia|].
  specialize (IH (tl s) (16 * v + hexval (head s))). pose proof (tl_len s). lia.
Qed.
Lemma plain_atom_len L s p r : plain_atom L s = Ok (p, r) -> (length r < length s)%nat \/ (r = s /\ (s = [] \/ existsb (Z.eqb (head s)) [42; 43; 63; 123; 124] = true)).
Proof.
  destruct s as [|c s]; cbn [plain_atom]; [intros [= _ <-]; right; auto|].
  destruct (c =? 91); [intros H; apply bracket_len in H; left; cbn; lia|].
  destruct (c =? 46); [destruct (newline _); intros [= _ <-]; left; cbn; lia|].
  destruct (c =? 94); [intros [= _ <-]; left; cbn; lia|]. destruct (c =? 36); [intros [= _ <-]; left; cbn; lia|].
  destruct (_ || _) eqn:E; intros [= _ <-]; [|left; cbn; lia]. right. split; [reflexivity|]. right. cbn [head hd existsb]. rewrite !orb_true_iff in *. tauto.
Qed.
Lemma plain_atom_fuel L s : plain_atom L s <> Err Fuel.
Proof.
  destruct s as [|c s]; cbn [plain_atom]; [discriminate|]. destruct (c =? 91); [apply bracket_fuel|]. destruct (c =? 46); [destruct (newline _); discriminate|].
  destruct (c =? 94); [discriminate|]. destruct (c =? 36); [discriminate|]. destruct (_ || _); discriminate.
Qed.
Lemma escape_len L s p r : escape L s = Ok (p, r) -> (length r < length s)%nat.
Proof.
  destruct s as [|c s]; cbn [escape]; [discriminate|]. destruct (macro c).
  - destruct (plain_atom L l) as [[n r']|]; [|discriminate]. intros [= _ <-]. cbn. lia.
  - destruct (c =? 98); [intros [= _ <-]; cbn; lia|]. destruct (c =? 66); [intros [= _ <-]; cbn; lia|]. destruct (c =? 60); [intros [= _ <-]; cbn; lia|].
    destruct (c =? 62); [intros [= _ <-]; cbn; lia|]. destruct (c =? 120).
    + destruct (head s =? 123).
      * pose proof (hex_digits_len 8 (tl s) 0) as Q. destruct (hex_digits 8 (tl s) 0) as [v s']. cbn [snd] in Q. pose proof (tl_len s). pose proof (tl_len s').
        destruct (head s' =? 125); [|discriminate]. intros [= _ <-]. cbn. lia.
      * pose proof (hex_digits_len 2 s 0) as Q. destruct (hex_digits 2 s 0) as [v s']. cbn [snd] in Q. intros [= _ <-]. cbn. lia.
    + destruct (isdigit c); [discriminate|]. destruct (128 <=? c); [discriminate|]. intros [= _ <-]. cbn. lia.
Qed.
Lemma escape_fuel L s : escape L s <> Err Fuel.
Proof.
  destruct s as [|c s]; cbn [escape]; [discriminate|]. destruct (macro c).
  - pose proof (plain_atom_fuel L l). destruct (plain_atom L l) as [[n r']|]; [discriminate|congruence].
  - destruct (c =? 98); [discriminate|]. destruct (c =? 66); [discriminate|]. destruct (c =? 60); [discriminate|].
    destruct (c =? 62); [discriminate|]. destruct (c =? 120).
    + destruct (head s =? 123); [destruct (hex_digits 8 (tl s) 0) as [v s']; destruct (head s' =? 125); discriminate|].
      destruct (hex_digits 2 s 0); discriminate.
    + destruct (isdigit c); [discriminate|]. destruct (128 <=? c); discriminate.
Qed.
Lemma dup_fuel s : dup s <> Err Fuel.
Proof. unfold dup. destruct (dup_count s) as [n s1]. destruct (if head s1 =? 44 then dup_count (tl s1) else (n, s1)) as [m s2]. destruct (_ || _ || _ || _ || _); discriminate. Qed.

(** The reading of a pattern always ends. *)
Lemma parse_ends L : forall f stack u b cur s, (measure cur s stack < f)%nat -> parse L f stack u b cur s <> Err Fuel.
Proof.
  induction f as [|f IH]; intros stack u b cur s M; [lia|]. cbn [parse].
  assert (C : forall st u b cur s', (length s' < length s)%nat -> parse L f st u b cur s' <> Err Fuel).
  { intros st u' b' cur' s' Q. apply IH. pose proof (measure_le cur' s' st). unfold measure in M. destruct cur, (stops s stack); lia. }
  assert (T : forall x, head s = x -> x <> 0 -> (length (tl s) < length s)%nat) by (intros x H N; destruct s; [cbn in H; congruence|cbn; lia]).
  destruct cur as [n|].
  - destruct (head s =? 42) eqn:E1; [b2p; eapply C, T; [exact E1|discriminate]|]. destruct (head s =? 43) eqn:E2; [b2p; eapply C, T; [exact E2|discriminate]|].
    destruct (head s =? 63) eqn:E3; [b2p; eapply C, T; [exact E3|discriminate]|].
    destruct (head s =? 123) eqn:E4.
    { b2p. pose proof (T _ E4 ltac:(discriminate)) as Q. destruct (dup (tl s)) as [[[mn mx] s']|e] eqn:D; [apply dup_len in D; apply C; lia|]. intros [= ->]. now apply dup_fuel in D. }
    destruct (head s =? 124) eqn:E5; [b2p; eapply C, T; [exact E5|discriminate]|].
    destruct s as [|c r]; [destruct stack; discriminate|]. cbn [head hd] in *.
    assert (X : existsb (Z.eqb c) [42; 43; 63; 123; 124] = false) by (cbn [existsb]; rewrite E1, E2, E3, E4, E5; reflexivity).
    destruct stack as [|[u0 b0] st].
    + apply IH. unfold measure in *. cbn [stops] in *. rewrite X in *. rewrite andb_false_r in *. cbn [orb] in *. lia.
    + destruct (c =? 41) eqn:E6; [apply C; cbn; lia|]. apply IH. unfold measure in *. cbn [stops] in *. rewrite X, E6 in *. cbn [orb andb] in *. lia.
  - destruct (head s =? 40) eqn:E1; [b2p; eapply C, T; [exact E1|discriminate]|].
    destruct ((head s =? 41) && _) eqn:E2.
    { apply andb_prop in E2 as [E2 E3]. b2p. apply IH. unfold measure in *. destruct s as [|c r]; [discriminate|]. cbn [head hd] in E2. subst c.
      cbn [stops] in *. rewrite E3 in *. cbn [Z.eqb Pos.eqb andb existsb orb] in *. lia. }
    destruct (atom L s) as [[n s']|e] eqn:A.
    + unfold atom in A. destruct (head s =? 92) eqn:E3.
      * b2p. apply escape_len in A. pose proof (T _ E3 ltac:(discriminate)). apply C. lia.
      * apply plain_atom_len in A as [A|[-> A]]; [apply C; lia|]. apply IH. unfold measure in *.
        assert (X : stops s stack = true) by (destruct s as [|c r]; [reflexivity|]; destruct A as [A|A]; [discriminate|]; cbn [stops]; cbn [head hd] in A; rewrite A; reflexivity).
        rewrite X in *. lia.
    + intros [= ->]. unfold atom in A. destruct (head s =? 92); [now apply escape_fuel in A|now apply plain_atom_fuel in A].
Qed.
Lemma tre_parse_ends L s : tre_parse L s <> Err Fuel.
Proof. apply parse_ends. pose proof (measure_le None s []). lia. Qed.

(** The whole text of a pattern. *)
Theorem read_whole L r : sane L -> wf L r -> exists n, built L r n /\ tre_parse L (pr r) = Ok (fst (marksub n)).
Proof.
  intros S W. destruct (reads L r S W) as (_ & _ & A). destruct (A [] [] ltac:(now left)) as (n & u & b & n' & k & B & Un & E).
  exists n. split; [exact B|]. unfold tre_parse. rewrite app_nil_r in E.
  assert (X : parse L (k + 1) [] None None None (pr r) = Ok (fst (marksub n))) by (rewrite E; cbn [parse head hd Z.eqb Pos.eqb]; now rewrite Un).
  pose proof (tre_parse_ends L (pr r)) as Y. unfold tre_parse in Y. rewrite <- (parse_mono L _ (k + 1) _ _ _ _ _ Y), Nat.add_comm, parse_mono; [exact X|]. rewrite X. discriminate.
Qed.
