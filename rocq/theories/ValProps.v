(** Properties C40 (equality operators) and C53 (relational operators). *)
From Coq Require Import ZArith QArith Qpower Qabs List Bool Lia SpecFloat.
Import ListNotations.
From Verif Require Import Bits ValModel ValSpec ValProofs.
Local Open Scope Z_scope.

(** * === *)
Inductive keyv := KU | KN | KB (b : bool) | KF (k : num) | KS (n : nat) (s : list Z) | KO (a : Z).
Definition key (h : heap) (v : val) : option keyv :=
  match v with
  | VUndef => Some KU
  | VNull => Some KN
  | VBool b => Some (KB b)
  | VNum x => option_map KF (nkey x)
  | VStr s => Some (KS (length s) (cut s))
  | VObj a => match h a with
              | OBool b => Some (KB b)
              | ONum x => match nkey x with Some k => Some (KF k) | None => Some (KO a) end
              | OStr s => Some (KS (length s) (cut s))
              | OOther => Some (KO a)
              end
  end.
Lemma is_equal_key : forall h v w, is_equal h v w = true <-> exists k, key h v = Some k /\ key h w = Some k.
Proof.
  assert (NK : forall x y, num_eq x y = true <-> exists k, option_map KF (nkey x) = Some k /\ option_map KF (nkey y) = Some k).
  { intros x y. rewrite num_eq_key. split; intros (k & H1 & H2).
    - rewrite H1, H2. cbn. eauto.
    - destruct (nkey x) as [k1|]; [|discriminate]. destruct (nkey y) as [k2|]; [|discriminate]. cbn in *. exists k1. split; auto. congruence. }
  assert (SK : forall s t, (length s =? length t)%nat && (strcmp s t =? 0) = true <-> KS (length s) (cut s) = KS (length t) (cut t)).
  { intros s t. rewrite andb_true_iff, Nat.eqb_eq, Z.eqb_eq, strcmp_zero. split; [intros [-> ->]; auto | intros H; injection H; auto]. }
  assert (ONE : forall (a b : keyv), a = b <-> exists k, Some a = Some k /\ Some b = Some k).
  { intros a b. split; [intros ->; eauto | intros (k & H1 & H2); congruence]. }
  assert (NK2 : forall x y a, num_eq x y = true <-> exists k, match nkey x with Some k => Some (KF k) | None => Some (KO a) end = Some k /\ option_map KF (nkey y) = Some k).
  { intros x y a. rewrite NK. destruct (nkey x); cbn; [tauto|]. split; [intros (k & H & _); discriminate|]. intros (k & H & H2).
    destruct (nkey y); [cbn in H2; congruence | discriminate]. }
  assert (NK3 : forall x y a, num_eq x y = true <-> exists k, option_map KF (nkey x) = Some k /\ match nkey y with Some k => Some (KF k) | None => Some (KO a) end = Some k).
  { intros x y a. rewrite NK. destruct (nkey y); cbn; [tauto|]. split; [intros (k & _ & H); discriminate|]. intros (k & H & H2).
    destruct (nkey x); [cbn in H; congruence | discriminate]. }
  assert (NK4 : forall x y a b, a <> b -> num_eq x y = true <-> exists k, match nkey x with Some k => Some (KF k) | None => Some (KO a) end = Some k /\ match nkey y with Some k => Some (KF k) | None => Some (KO b) end = Some k).
  { intros x y a b Hab. rewrite NK. destruct (nkey x), (nkey y); cbn; try tauto; (split; [intros (k & H1 & H2); discriminate|]); intros (k & H & H2); congruence. }
  assert (NO : forall o1 o2 : option keyv, (forall k, o1 = Some k -> o2 <> Some k) -> false = true <-> exists k, o1 = Some k /\ o2 = Some k).
  { intros o1 o2 H. split; [discriminate|]. intros (k & H1 & H2). exfalso. exact (H k H1 H2). }
  intros h v w. unfold is_equal.
  destruct v as [| |b|x|s|a], w as [| |c|y|t|d]; cbn [get_bool get_num get_str key];
    try (match goal with |- context [?u =? ?v] => destruct (Z.eqb_spec u v) as [->|NE]; [split; [intros _ | reflexivity]|] end);
    repeat (match goal with |- context [h ?u] => destruct (h u) end);
    try (rewrite eqb_true_iff, <- ONE; split; congruence);
    try apply NK; try apply NK2; try apply NK3; try (apply NK4; assumption); try (rewrite SK; apply ONE);
    try (apply NO; intros k H1 H2; repeat (match goal with H : context [nkey ?z] |- _ => destruct (nkey z) end); cbn [option_map] in *; congruence);
    try (split; [intros _; eauto | reflexivity]);
    try (repeat (match goal with |- context [nkey ?z] => destruct (nkey z) end); eauto).
Qed.

(** === is symmetric and transitive, and reflexive except for NaN. *)
Theorem strict_equal_refl : forall h v, v <> VNum S754_nan -> is_equal h v v = true.
Proof.
  intros h v H. apply is_equal_key. destruct v as [| |b|x|s|a]; cbn [key]; eauto.
  - destruct x; cbn; eauto. contradiction.
  - destruct (h a) as [|x| |]; eauto. destruct (nkey x); eauto.
Qed.
Theorem strict_equal_sym : forall h v w, is_equal h v w = is_equal h w v.
Proof.
  intros. destruct (is_equal h v w) eqn:E1, (is_equal h w v) eqn:E2; auto.
  - apply is_equal_key in E1. assert (is_equal h w v = true) by (apply is_equal_key; firstorder). congruence.
  - apply is_equal_key in E2. assert (is_equal h v w = true) by (apply is_equal_key; firstorder). congruence.
Qed.
Theorem strict_equal_trans : forall h u v w, is_equal h u v = true -> is_equal h v w = true -> is_equal h u w = true.
Proof.
  intros h u v w H1 H2. apply is_equal_key in H1. apply is_equal_key in H2. apply is_equal_key.
  destruct H1 as (k & A & B), H2 as (k' & C & D). exists k. split; congruence.
Qed.
(** Doubles are bit patterns, strings without NUL *)
Definition proper (h : heap) (v : val) : Prop :=
  match unwrap h v with VNum x => double x | VStr s => no_nul s | _ => True end.
Lemma num_eq_value : forall x y, double x -> double y -> num_eq x y = true <-> same (VNum x) (VNum y).
Proof.
  intros x y Dx Dy. split.
  - intros H. destruct x as [sx|sx| |sx mx ex] eqn:Ex, y as [sy|sy| |sy my ey] eqn:Ey; try discriminate;
      try (unfold num_eq in H; cbn in H; destruct sx; discriminate); try (unfold num_eq in H; cbn in H; destruct sy; discriminate);
      try (assert (sx = sy) as -> by (unfold num_eq in H; cbn in H; destruct sx, sy; congruence); constructor).
    all: rewrite <- Ex, <- Ey in *;
      assert (exists p, value_of x = Some p) as (p & Hp) by (subst; eexists; reflexivity);
      assert (exists q, value_of y = Some q) as (q & Hq) by (subst; eexists; reflexivity);
      apply (same_num x y p q Hp Hq); unfold num_eq, SFeqb in H; rewrite (compare_values x y p q Dx Dy Hp Hq) in H;
      apply Qeq_alt; destruct (p ?= q)%Q; congruence.
  - inversion 1 as [ | | | | ? ? p q Hp Hq HE | s |]; subst.
    + unfold num_eq, SFeqb. rewrite (compare_values x y p q Dx Dy Hp Hq). apply Qeq_alt in HE. rewrite HE. reflexivity.
    + destruct s; reflexivity.
Qed.
(** v === w exactly when they are the same object, or the same primitive, where an object that
    wraps a boolean, number or string counts as that primitive. *)
Theorem strict_equal_meaning : forall h v w, proper h v -> proper h w ->
  is_equal h v w = true <-> same (unwrap h v) (unwrap h w) \/ (exists a, v = VObj a /\ w = VObj a).
Proof.
  assert (ST : forall s t, no_nul s -> no_nul t -> (length s =? length t)%nat && (strcmp s t =? 0) = true <-> same (VStr s) (VStr t)).
  { intros s t Hs Ht. rewrite andb_true_iff, Nat.eqb_eq, Z.eqb_eq, strcmp_zero, !cut_no_nul by auto.
    split; [intros [_ ->]; constructor | inversion 1; auto]. }
  assert (BT : forall b c, Bool.eqb b c = true <-> same (VBool b) (VBool c)).
  { intros b c. rewrite eqb_true_iff. split; [intros ->; constructor | inversion 1; auto]. }
  intros h v w Hv Hw. destruct (is_equal h v w) eqn:E.
  - split; auto. intros _. revert E. unfold is_equal, proper in *.
    destruct v as [| |b|x|s|a], w as [| |c|y|t|d]; cbn [get_bool get_num get_str unwrap] in *;
      try (match goal with |- context [?u =? ?v] => destruct (Z.eqb_spec u v) as [->|NE]; [intros _; right; eauto|] end);
      repeat (match goal with |- context [h ?u] => destruct (h u) end); intros E; try discriminate; left;
      solve [constructor | apply BT; auto | apply num_eq_value; auto | apply ST; auto].
  - split; [discriminate|]. intros H. exfalso. apply not_true_iff_false in E. apply E. clear E.
    destruct H as [H | (a & -> & ->)]; [|unfold is_equal; rewrite Z.eqb_refl; reflexivity].
    unfold is_equal, proper in *.
    destruct v as [| |b|x|s|a], w as [| |c|y|t|d]; cbn [get_bool get_num get_str unwrap] in *;
      try (match goal with |- context [?u =? ?v] => destruct (Z.eqb_spec u v) as [->|NE]; [reflexivity|] end);
      repeat (match goal with |- context [h ?u] => destruct (h u) end);
      repeat (match goal with X : same _ _ |- _ => match type of X with context [h ?u] => destruct (h u) end end);
      solve [reflexivity | apply BT; auto | apply num_eq_value; auto | apply ST; auto | inversion H; subst; congruence].
Qed.
(** Strings of the same length that agree up to a NUL are === although they differ. *)
Theorem strict_nul_refuted : exists s t, s <> t /\ forall h, is_equal h (VStr s) (VStr t) = true.
Proof. exists [97; 0; 98], [97; 0; 99]. split; [discriminate | reflexivity]. Qed.

(** * == *)
Lemma cmp_swap : forall tn h v w, value_cmp tn h v w = 0 <-> value_cmp tn h w v = 0.
Proof.
  intros tn h v w.
  assert (NS : forall x y, (if num_eq y x then 0 else if SFltb y x then -1 else 1) = 0 <-> num_eq y x = true).
  { intros x y. destruct (num_eq y x), (SFltb y x); split; intros; auto; lia. }
  assert (NC : forall x y, num_eq x y = num_eq y x).
  { intros x y. destruct (num_eq x y) eqn:E1, (num_eq y x) eqn:E2; auto.
    - apply num_eq_key in E1. assert (num_eq y x = true) by (apply num_eq_key; firstorder). congruence.
    - apply num_eq_key in E2. assert (num_eq x y = true) by (apply num_eq_key; firstorder). congruence. }
  assert (ST : forall s t, strcmp s t = 0 <-> strcmp t s = 0) by (intros; rewrite !strcmp_zero; split; congruence).
  unfold value_cmp.
  destruct v as [| |b|x|s|a], w as [| |c|y|t|d]; cbn [vt Z.eqb Pos.eqb to_primitive_res];
    repeat (match goal with |- context [h ?u] => destruct (h u) end);
    cbn [vt Z.eqb Pos.eqb negb nullish andb];
    solve [tauto | apply sub_swap | apply ST | rewrite !NS, NC; tauto | lia | destruct b, c; lia |
           repeat (match goal with |- context [if ?q then 1 else 0] => destruct q end); lia ].
Qed.
(** == does not depend on the order of its operands. *)
Theorem loose_equal_sym : forall tn h a b, loose_equal tn h a b = loose_equal tn h b a.
Proof.
  intros. unfold loose_equal. destruct (Z.eqb_spec (value_cmp tn h b a) 0) as [E|E], (Z.eqb_spec (value_cmp tn h a b) 0) as [F|F]; auto.
  - apply cmp_swap in E. contradiction.
  - apply cmp_swap in F. contradiction.
Qed.
(** === implies == for values that are not objects. *)
Definition primitive (v : val) : Prop := forall a, v <> VObj a.
Theorem strict_implies_loose : forall tn h a b, primitive a -> primitive b -> is_equal h a b = true -> loose_equal tn h a b = true.
Proof.
  intros tn h a b Pa Pb H. unfold loose_equal, value_cmp, is_equal in *.
  destruct a as [| |x|x|s|x], b as [| |y|y|t|y]; try (exfalso; eapply Pa; reflexivity); try (exfalso; eapply Pb; reflexivity);
    cbn [get_bool get_num get_str vt Z.eqb Pos.eqb negb] in *; try discriminate; auto.
  - apply eqb_prop in H. subst y. destruct x; reflexivity.
  - rewrite H. reflexivity.
  - apply andb_true_iff in H. tauto.
Qed.
(** Number == a primitive of another type with the numeric value y (string, boolean or null):
    true if the values are equal, and only if they differ by less than 1. *)
Theorem loose_equal_numeric : forall tn h x b p q, primitive b -> vt b <> vt (VNum x) ->
  value_of x = Some p -> value_of (to_number tn h b) = Some q ->
  ((p == q)%Q -> loose_equal tn h (VNum x) b = true) /\
  (loose_equal tn h (VNum x) b = true -> (Qabs (p - q) < 1)%Q).
Proof.
  intros tn h x b p q Pb Hb Hp Hq.
  assert (E : loose_equal tn h (VNum x) b = (int_of_double (num_sub x (to_number tn h b)) =? 0)).
  { unfold loose_equal, value_cmp. destruct b as [| |c|y|t|d]; try reflexivity; [contradiction | exfalso; eapply Pb; reflexivity]. }
  rewrite E, Z.eqb_eq. split.
  - intros H. exact (difference_same x _ p q Hp Hq H).
  - intros H. apply Qnot_le_lt. intros L. exact (difference_far x _ p q Hp Hq L H).
Qed.
(** So for whole numbers == between a number and a numeric string is numeric equality. *)
Theorem loose_equal_integers : forall tn h x b m n, primitive b -> vt b <> vt (VNum x) ->
  (exists p, value_of x = Some p /\ (p == inject_Z m)%Q) ->
  (exists q, value_of (to_number tn h b) = Some q /\ (q == inject_Z n)%Q) ->
  loose_equal tn h (VNum x) b = true <-> m = n.
Proof.
  intros tn h x b m n Pb Hb (p & Hp & Ep) (q & Hq & Eq).
  destruct (loose_equal_numeric tn h x b p q Pb Hb Hp Hq) as [A B]. split.
  - intros H. specialize (B H). rewrite Ep, Eq in B.
    setoid_replace (inject_Z m - inject_Z n)%Q with (inject_Z (m - n)) in B by (unfold Z.sub; rewrite inject_Z_plus, inject_Z_opp; reflexivity).
    change (Qabs (inject_Z (m - n))) with (inject_Z (Z.abs (m - n))) in B. change 1%Q with (inject_Z 1) in B.
    rewrite <- Zlt_Qlt in B. lia.
  - intros ->. apply A. rewrite Ep, Eq. reflexivity.
Qed.
(** undefined is == only to undefined and null (and to objects that wrap nothing). *)
Theorem loose_equal_undefined : forall tn h b, primitive b -> loose_equal tn h VUndef b = true <-> b = VUndef \/ b = VNull.
Proof.
  intros tn h b Pb. unfold loose_equal, value_cmp. destruct b as [| |c|y|t|d]; cbn [vt Z.eqb Pos.eqb to_primitive_res negb nullish andb to_number].
  - split; auto.
  - split; auto.
  - split; [destruct c; discriminate | intros [H|H]; discriminate].
  - split; [destruct y; discriminate | intros [H|H]; discriminate].
  - split; [destruct (tn t); discriminate | intros [H|H]; discriminate].
  - exfalso; eapply Pb; reflexivity.
Qed.
(** Fractions are cut off: 1 == "1.5" and "1.5" == 2, but 1 != 2: not transitive, not numeric. *)
Definition three_halves : num := S754_finite false 6755399441055744 (-52).
Definition two : num := S754_finite false 4503599627370496 (-51).
Theorem loose_fraction_refuted : forall s tn h, tn s = three_halves ->
  loose_equal tn h (VNum SFone) (VStr s) = true /\ loose_equal tn h (VStr s) (VNum two) = true /\
  loose_equal tn h (VNum SFone) (VNum two) = false.
Proof.
  intros s tn h H. unfold loose_equal, value_cmp. cbn [vt Z.eqb Pos.eqb to_primitive_res negb nullish andb to_number].
  rewrite H. repeat split; vm_compute; reflexivity.
Qed.
(** An ordinary object is == null and == undefined; Infinity is not == "Infinity". *)
Theorem loose_object_null_refuted : forall tn h a, h a = OOther -> loose_equal tn h (VObj a) VNull = true /\ loose_equal tn h (VObj a) VUndef = true.
Proof. intros tn h a H. unfold loose_equal, value_cmp. cbn [vt Z.eqb Pos.eqb to_primitive_res]. rewrite H. split; reflexivity. Qed.
Theorem loose_infinity_refuted : forall tn h s, tn s = S754_infinity false ->
  loose_equal tn h (VNum (S754_infinity false)) (VStr s) = false.
Proof. intros tn h s H. unfold loose_equal, value_cmp. cbn [vt Z.eqb Pos.eqb to_primitive_res negb nullish andb to_number]. rewrite H. reflexivity. Qed.

(** * Relational operators *)
Definition holds (r : option (option bool)) : Prop := r = Some (Some true).
Definition fails (r : option (option bool)) : Prop := r = Some (Some false).
(** Numbers: < is the order of their values; in strict mode and without. *)
Theorem less_numbers : forall st tn ts h x y p q, double x -> double y -> value_of x = Some p -> value_of y = Some q ->
  (holds (op_less st tn ts h (VNum x) (VNum y)) <-> (p < q)%Q) /\
  (fails (op_less st tn ts h (VNum x) (VNum y)) <-> (q <= p)%Q).
Proof.
  intros st tn ts h x y p q Dx Dy Hp Hq. unfold holds, fails, op_less, less.
  assert (NX : is_nan x = false) by (destruct x; auto; discriminate). assert (NY : is_nan y = false) by (destruct y; auto; discriminate).
  cbn [vt Z.eqb orb get_str to_number]. rewrite NX, NY, !andb_false_r. cbn [orb]. rewrite ?andb_false_r.
  unfold SFltb. rewrite (compare_values x y p q Dx Dy Hp Hq).
  destruct (p ?= q)%Q eqn:E.
  - apply Qeq_alt in E. split; split; intros; try discriminate; auto; [rewrite E in H; exfalso; exact (Qlt_irrefl _ H) | rewrite E; apply Qle_refl].
  - assert (L : (p < q)%Q) by (apply Qlt_alt; auto). split; split; intros; try discriminate; auto. exfalso. exact (Qlt_not_le _ _ L H).
  - assert (L : (q < p)%Q) by (apply Qgt_alt; auto). split; split; intros; try discriminate; auto; [exfalso; exact (Qlt_irrefl _ (Qlt_trans _ _ _ L H)) | apply Qlt_le_weak; auto].
Qed.
Theorem less_equ_numbers : forall st tn ts h x y p q, double x -> double y -> value_of x = Some p -> value_of y = Some q ->
  (holds (op_greater st tn ts h (VNum x) (VNum y)) <-> (q < p)%Q) /\
  (holds (op_less_equ st tn ts h (VNum x) (VNum y)) <-> (p <= q)%Q) /\
  (holds (op_greater_equ st tn ts h (VNum x) (VNum y)) <-> (q <= p)%Q).
Proof.
  intros st tn ts h x y p q Dx Dy Hp Hq.
  destruct (less_numbers st tn ts h x y p q Dx Dy Hp Hq) as [A1 A2]. destruct (less_numbers st tn ts h y x q p Dy Dx Hq Hp) as [B1 B2].
  assert (N : forall r, holds (neg r) <-> fails r).
  { intros [[[|]|]|]; unfold holds, fails, neg; cbn; split; intros; congruence. }
  unfold op_greater, op_less_equ, op_greater_equ. unfold op_less in *. rewrite !N. tauto.
Qed.
(** Strings: < is alphabetical order of the bytes. *)
Theorem less_strings : forall st tn ts h s t, no_nul s -> no_nul t ->
  (holds (op_less st tn ts h (VStr s) (VStr t)) <-> before s t) /\
  (holds (op_less_equ st tn ts h (VStr s) (VStr t)) <-> before s t \/ s = t) /\
  (before s t \/ s = t \/ before t s).
Proof.
  intros st tn ts h s t Hs Ht. unfold holds, op_less, op_less_equ, neg, less. cbn [vt Z.eqb orb get_str]. rewrite andb_false_r.
  rewrite (strcmp_opp s t). cbn [option_map].
  pose proof (strcmp_before s t Hs Ht) as B. pose proof (strcmp_before t s Ht Hs) as B2. rewrite (strcmp_opp s t) in B2.
  pose proof (strcmp_zero s t) as ZZ. rewrite !cut_no_nul in ZZ by auto.
  destruct (Z.ltb_spec 0 (strcmp s t)) as [E1|E1], (Z.ltb_spec (strcmp s t) 0) as [E2|E2], (Z.ltb_spec 0 (- strcmp s t)) as [E3|E3], (Z.ltb_spec (- strcmp s t) 0) as [E4|E4];
    try lia; cbn [negb].
  - assert (~ before s t) by (rewrite <- B; lia). assert (s <> t) by (rewrite <- ZZ; lia).
    split; [split; [discriminate | contradiction]|]. split; [split; [discriminate | tauto]|]. right. right. apply B2. lia.
  - assert (before s t) by (apply B; lia). tauto.
  - assert (s = t) as -> by (apply ZZ; lia). assert (~ before t t) by (rewrite <- B; lia). rewrite Nat.ltb_irrefl. cbn [negb].
    split; [split; [discriminate | contradiction]|]. tauto.
Qed.
(** Of two numbers (not NaN), or two strings, exactly one of a < b, a === b, a > b holds. *)
Theorem trichotomy : forall st tn ts h a b,
  (exists x y p q, a = VNum x /\ b = VNum y /\ double x /\ double y /\ value_of x = Some p /\ value_of y = Some q) \/
  (exists s t, a = VStr s /\ b = VStr t /\ no_nul s /\ no_nul t) ->
  let lt := op_less st tn ts h a b in let gt := op_greater st tn ts h a b in let eq := is_equal h a b in
  (holds lt /\ eq = false /\ fails gt) \/ (fails lt /\ eq = true /\ fails gt) \/ (fails lt /\ eq = false /\ holds gt).
Proof.
  intros st tn ts h a b [(x & y & p & q & -> & -> & Dx & Dy & Hp & Hq) | (s & t & -> & -> & Hs & Ht)] lt gt eq.
  - destruct (less_numbers st tn ts h x y p q Dx Dy Hp Hq) as [A1 A2]. destruct (less_numbers st tn ts h y x q p Dy Dx Hq Hp) as [B1 B2].
    change (op_less st tn ts h (VNum y) (VNum x)) with gt in B1, B2. change (op_less st tn ts h (VNum x) (VNum y)) with lt in A1, A2.
    assert (E : eq = match (p ?= q)%Q with Eq => true | _ => false end).
    { unfold eq, is_equal. cbn [get_bool get_num]. unfold num_eq, SFeqb. rewrite (compare_values x y p q Dx Dy Hp Hq). destruct (p ?= q)%Q; auto. }
    rewrite E. destruct (p ?= q)%Q eqn:C.
    + apply Qeq_alt in C. right. left. rewrite A2, B2, C. split; [apply Qle_refl | split; [auto | apply Qle_refl]].
    + apply Qlt_alt in C. left. rewrite A1, B2. split; auto. split; auto. apply Qlt_le_weak. auto.
    + apply Qgt_alt in C. right. right. rewrite A2, B1. split; [apply Qlt_le_weak; auto|]. auto.
  - unfold lt, gt, eq, op_less, op_greater, less, is_equal, holds, fails. cbn [vt Z.eqb orb get_str get_bool get_num]. rewrite andb_false_r.
    rewrite (strcmp_opp s t). pose proof (strcmp_zero s t) as ZZ. rewrite !cut_no_nul in ZZ by auto.
    destruct (Z.ltb_spec 0 (strcmp s t)) as [E1|E1], (Z.ltb_spec (strcmp s t) 0) as [E2|E2], (Z.ltb_spec 0 (- strcmp s t)) as [E3|E3], (Z.ltb_spec (- strcmp s t) 0) as [E4|E4];
      try lia.
    + right. right. destruct (Z.eqb_spec (strcmp s t) 0); [lia|]. rewrite andb_false_r. auto.
    + left. destruct (Z.eqb_spec (strcmp s t) 0); [lia|]. rewrite andb_false_r. auto.
    + right. left. assert (s = t) as -> by (apply ZZ; lia). rewrite Nat.ltb_irrefl, Nat.eqb_refl. destruct (Z.eqb_spec (strcmp t t) 0); [auto | lia].
Qed.
(** Conversion to a number *)
Lemma one_value : (inject_Z 4503599627370496 * Qpower 2 (-52) == 1)%Q.
Proof. vm_compute. reflexivity. Qed.
Lemma to_number_numeric : forall tn h v p, proper h v -> numeric h v p ->
  double (to_number tn h v) /\ get_str h v = None /\ exists q, value_of (to_number tn h v) = Some q /\ (q == p)%Q.
Proof.
  assert (P : forall tn h v p, (forall a, v <> VObj a) -> proper h v -> numeric h v p ->
    double (to_number tn h v) /\ get_str h v = None /\ exists q, value_of (to_number tn h v) = Some q /\ (q == p)%Q).
  { intros tn h v p NO Pr N. destruct N; try (exfalso; eapply NO; reflexivity); cbn [to_number get_str].
    - split; [reflexivity|]. split; [reflexivity|]. exists 0%Q. split; reflexivity.
    - split; [reflexivity|]. split; [reflexivity|]. exists 0%Q. split; reflexivity.
    - split; [reflexivity|]. split; [reflexivity|]. eexists. split; [reflexivity|]. exact one_value.
    - split; [exact Pr|]. split; [reflexivity|]. exists p. split; [auto | reflexivity]. }
  intros tn h v p Pr N. destruct v as [| |b|x|s|a]; try (apply P; auto; congruence).
  inversion N as [| | | |? ? U NS N2 E1 E2|? O E1 E2]; subst.
  - unfold proper, unwrap in Pr. cbn [unwrap] in U, N2. cbn [to_number get_str]. destruct (h a) as [b|x|s|]; try contradiction.
    + apply (P tn h (VBool b)) in N2; [auto | congruence | exact I].
    + apply (P tn h (VNum x)) in N2; [auto | congruence | exact Pr].
    + exfalso. eapply NS. reflexivity.
  - cbn [to_number get_str]. rewrite O. split; [reflexivity|]. split; [reflexivity|]. exists 0%Q. split; reflexivity.
Qed.
(** == between a number and true, false or null *)
Theorem loose_equal_converted : forall tn h x b m n, primitive b -> vt b <> vt (VNum x) -> numeric h b (inject_Z n) ->
  (exists p, value_of x = Some p /\ (p == inject_Z m)%Q) -> loose_equal tn h (VNum x) b = true <-> m = n.
Proof.
  intros tn h x b m n Pb Hb N Hx. apply loose_equal_integers; auto.
  assert (Pr : proper h b) by (unfold proper; destruct b; try exact I; [contradiction | inversion N | exfalso; eapply Pb; reflexivity]).
  destruct (to_number_numeric tn h b _ Pr N) as (_ & _ & q & Q1 & Q2). exists q. auto.
Qed.
(** Values that are not strings are compared by the numbers they stand for *)
Theorem less_converted : forall tn ts h a b p q, proper h a -> proper h b -> numeric h a p -> numeric h b q ->
  forall st,
  (holds (op_less st tn ts h a b) <-> (p < q)%Q) /\ (fails (op_less st tn ts h a b) <-> (q <= p)%Q) /\
  (holds (op_less_equ st tn ts h a b) <-> (p <= q)%Q) /\ (holds (op_greater_equ st tn ts h a b) <-> (q <= p)%Q).
Proof.
  intros tn ts h a b p q Pa Pb Na Nb st.
  destruct (to_number_numeric tn h a p Pa Na) as (Da & Sa & p' & Va & Ea). destruct (to_number_numeric tn h b q Pb Nb) as (Db & Sb & q' & Vb & Eb).
  assert (NU : forall v r, numeric h v r -> (vt v =? 0) = false) by (intros v r N; destruct N; reflexivity).
  assert (L : forall a b, numeric h a p -> numeric h b q -> get_str h a = None -> get_str h b = None -> op_less st tn ts h a b = op_less st tn ts h (VNum (to_number tn h a)) (VNum (to_number tn h b)) /\
     op_less st tn ts h b a = op_less st tn ts h (VNum (to_number tn h b)) (VNum (to_number tn h a))).
  { intros a0 b0 N1 N2 S1 S2. unfold op_less, less. rewrite S1, S2, (NU _ _ N1), (NU _ _ N2). cbn [get_str vt Z.eqb orb to_number]. rewrite andb_false_r. split; reflexivity. }
  destruct (L a b Na Nb Sa Sb) as [L1 L2].
  destruct (less_numbers st tn ts h _ _ p' q' Da Db Va Vb) as [A1 A2]. destruct (less_numbers st tn ts h _ _ q' p' Db Da Vb Va) as [B1 B2].
  assert (N : forall r, holds (neg r) <-> fails r).
  { intros [[[|]|]|]; unfold holds, fails, neg; cbn; split; intros; congruence. }
  unfold op_less_equ, op_greater_equ. unfold op_less in *. rewrite !N, L1, L2, A1, A2, B2, Ea, Eb. tauto.
Qed.
(** undefined has no number: all four comparisons with a value that is not a string give undefined
    (which counts as false); with strict checks they are an error *)
Theorem less_undefined : forall tn ts h b, get_str h b = None ->
  op_less false tn ts h VUndef b = Some None /\ op_less false tn ts h b VUndef = Some None /\
  op_less_equ false tn ts h VUndef b = Some None /\ op_greater_equ false tn ts h VUndef b = Some None /\
  op_less true tn ts h VUndef b = None /\ op_less true tn ts h b VUndef = None.
Proof.
  intros tn ts h b S. unfold op_less_equ, op_greater_equ, op_less, less, neg. cbn [vt Z.eqb orb andb get_str to_number is_nan]. rewrite S.
  rewrite !orb_true_r. cbn [orb andb option_map]. repeat split; reflexivity.
Qed.
(** and NaN with any number likewise *)
Theorem less_nan : forall tn ts h y,
  op_less false tn ts h (VNum S754_nan) (VNum y) = Some None /\ op_less false tn ts h (VNum y) (VNum S754_nan) = Some None /\
  op_less true tn ts h (VNum S754_nan) (VNum y) = None /\ op_less true tn ts h (VNum y) (VNum S754_nan) = None.
Proof.
  intros tn ts h y. unfold op_less, less. cbn [vt Z.eqb orb andb get_str to_number is_nan]. rewrite !orb_true_r. cbn. auto.
Qed.
Example converted_meets : numeric (fun _ => OBool true) (VObj 3) 1 /\ proper (fun _ => OBool true) (VObj 3) /\ numeric (fun _ => OOther) VNull 0.
Proof. split; [|split; [exact I | constructor]]. apply nu_wrapped; cbn; try discriminate. constructor. Qed.
(** A number and a string are compared as strings: "10" < 9 although 10 > 9. *)
Theorem less_mixed_refuted : forall st tn ts h nine, ts (VNum nine) = [57] ->
  holds (op_less st tn ts h (VStr [49; 48]) (VNum nine)).
Proof. intros st tn ts h nine H. unfold holds, op_less, less. cbn [vt Z.eqb orb get_str Pos.eqb]. rewrite H, andb_false_r. reflexivity. Qed.

(** * Non-vacuity *)
Example values_ex : double SFone /\ double three_halves /\ double two /\ proper (fun _ => OOther) (VNum two) /\
  (exists p, value_of three_halves = Some p /\ (p == 3 # 2)%Q) /\
  (exists p, value_of SFone = Some p /\ (p == inject_Z 1)%Q) /\
  is_equal (fun _ => ONum two) (VObj 5) (VNum two) = true /\
  loose_equal (fun _ => two) (fun _ => OOther) (VNum two) (VStr [50]) = true /\
  loose_equal (fun _ => two) (fun _ => OOther) (VNum SFone) (VStr [50]) = false /\
  op_less true (fun _ => two) (fun _ => []) (fun _ => OOther) (VNum SFone) (VNum two) = Some (Some true).
Proof.
  repeat (split; [reflexivity|]).
  split; [eexists; split; [reflexivity|]; vm_compute; reflexivity|].
  split; [eexists; split; [reflexivity|]; vm_compute; reflexivity|].
  repeat split; reflexivity.
Qed.

Print Assumptions strict_equal_meaning.
Print Assumptions strict_equal_trans.
Print Assumptions loose_equal_integers.
Print Assumptions loose_equal_sym.
Print Assumptions trichotomy.
Print Assumptions less_strings.
Print Assumptions less_converted.
Print Assumptions loose_equal_converted.
