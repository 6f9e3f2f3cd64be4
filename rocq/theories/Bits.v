(** Arithmetic facts about bit operations on Z. *)
From Coq Require Import ZArith Lia List Bool.
Import ListNotations.
Local Open Scope Z_scope.

Lemma land_pow2 : forall x n, 0 <= n -> Z.land x (2 ^ n - 1) = x mod 2 ^ n.
Proof. intros x n Hn. replace (2 ^ n - 1) with (Z.ones n) by (rewrite Z.ones_equiv; lia). apply Z.land_ones; auto. Qed.

Lemma shiftr_div : forall x n, 0 <= n -> Z.shiftr x n = x / 2 ^ n.
Proof. intros; apply Z.shiftr_div_pow2; auto. Qed.
Lemma shiftl_mul : forall x n, 0 <= n -> Z.shiftl x n = x * 2 ^ n.
Proof. intros; apply Z.shiftl_mul_pow2; auto. Qed.

Lemma lor_add : forall k n y, 0 <= n -> 0 <= y < 2 ^ n -> Z.lor (k * 2 ^ n) y = k * 2 ^ n + y.
Proof.
  intros k n y Hn Hy.
  assert (E : Z.land (k * 2 ^ n) y = 0).
  { apply Z.bits_inj'. intros i Hi. rewrite Z.land_spec, Z.bits_0.
    destruct (Z_lt_ge_dec i n) as [L|L].
    - rewrite Z.mul_pow2_bits_low by auto. reflexivity.
    - rewrite <- (Z.mod_small y (2 ^ n)) by auto. rewrite Z.mod_pow2_bits_high by lia. apply andb_false_r. }
  rewrite <- Z.lxor_lor by auto. symmetry. apply Z.add_nocarry_lxor. auto.
Qed.

(** Masking a field of bits n .. n+w-1 and shifting it down. *)
Lemma land_shift_field : forall x n w m, 0 <= n -> 0 <= w -> m = (2 ^ w - 1) * 2 ^ n ->
  Z.shiftr (Z.land x m) n = (x / 2 ^ n) mod 2 ^ w.
Proof.
  intros x n w m Hn Hw ->. rewrite Z.shiftr_land, !shiftr_div by auto.
  rewrite Z.div_mul by (apply Z.pow_nonzero; lia). apply land_pow2; auto.
Qed.

(** Clearing the bits of m from a byte of the form m + y. *)
Lemma ldiff_tag : forall k n y, 0 <= n -> 0 <= y < 2 ^ n ->
  Z.ldiff (k * 2 ^ n + y) (k * 2 ^ n) = y.
Proof.
  intros k n y Hn Hy. rewrite <- lor_add by auto.
  apply Z.bits_inj'. intros i Hi. rewrite Z.ldiff_spec, Z.lor_spec.
  destruct (Z_lt_ge_dec i n) as [L|L].
  - rewrite Z.mul_pow2_bits_low by auto. simpl. apply andb_true_r.
  - replace (Z.testbit y i) with false.
    + rewrite orb_false_r. apply andb_negb_r.
    + symmetry. rewrite <- (Z.mod_small y (2 ^ n)) by auto. apply Z.mod_pow2_bits_high; lia.
Qed.

Lemma range_forall : forall (n : nat) (P : Z -> bool),
  forallb P (map Z.of_nat (seq 0 n)) = true -> forall x, 0 <= x < Z.of_nat n -> P x = true.
Proof.
  intros n P H x Hx. rewrite forallb_forall in H. apply H.
  apply in_map_iff. exists (Z.to_nat x). split; [lia|]. apply in_seq. lia.
Qed.

(** lia after turning boolean comparisons in the context into propositions *)
Ltac b2p := repeat match goal with
  | H : (_ =? _) = true |- _ => apply Z.eqb_eq in H
  | H : (_ =? _) = false |- _ => apply Z.eqb_neq in H
  | H : (_ <? _) = true |- _ => apply Z.ltb_lt in H
  | H : (_ <? _) = false |- _ => apply Z.ltb_ge in H
  | H : (_ <=? _) = true |- _ => apply Z.leb_le in H
  | H : (_ <=? _) = false |- _ => apply Z.leb_gt in H
  end.
Ltac zb := b2p; lia.
