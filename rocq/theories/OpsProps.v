(** * C69: bitwise and shift operators *)
From Coq Require Import ZArith QArith Lia Bool SpecFloat.
Require Import Verif.NumModel Verif.NumSpec Verif.NumProofs2 Verif.OpsModel Verif.OpsSpec Verif.OpsProofs.
Local Open Scope Z_scope.

(** &, | and ^ of numbers from 0 up to 2^31 (fractions are cut off) are those of ECMAScript. *)
Theorem bitwise_js strict o x y : between 0 (2 ^ 31) x -> between 0 (2 ^ 31) y ->
  exists r, bitwise strict o x y = Some r /\ is_int r (zop o (int32 x) (int32 y)).
Proof.
  intros Hx Hy. destruct (between_part 0 (2 ^ 31) x ltac:(lia) ltac:(lia) Hx) as (a & Ia & Pa & Ra).
  destruct (between_part 0 (2 ^ 31) y ltac:(lia) ltac:(lia) Hy) as (b & Ib & Pb & Rb).
  rewrite (bitwise_part strict o x y a b Ia Ib) by lia. eexists. split; [reflexivity|].
  rewrite (int32_part x a Pa), (int32_part y b Pb), !low32_id by lia. rewrite !Z.mod_small by lia.
  apply of_int_exact. pose proof (zop_range o 31 a b ltac:(lia) Ra Rb). lia.
Qed.
(** & is that of ECMAScript as soon as one operand is from 0 up to 2^31; the other may be negative or large. *)
Theorem and_js strict x y : between 0 (2 ^ 31) x -> between (- 2 ^ 63) (2 ^ 63) y ->
  exists r, bitwise strict BAnd x y = Some r /\ is_int r (Z.land (int32 x) (int32 y)).
Proof.
  intros Hx Hy. destruct (between_part 0 (2 ^ 31) x ltac:(lia) ltac:(lia) Hx) as (a & Ia & Pa & Ra).
  destruct (between_part (- 2 ^ 63) (2 ^ 63) y ltac:(lia) ltac:(lia) Hy) as (b & Ib & Pb & Rb).
  rewrite (bitwise_part strict BAnd x y a b Ia Ib) by lia. eexists. split; [reflexivity|].
  rewrite (int32_part x a Pa), (int32_part y b Pb), (low32_id a) by lia. rewrite (Z.mod_small a) by lia. cbn [zop].
  rewrite land_low by lia. apply of_int_exact.
  assert (E : Z.land a (low32 b) = Z.land a (b mod 2 ^ 31)).
  { apply Z.bits_inj'. intros n Hn. rewrite !Z.land_spec. destruct (Z.lt_ge_cases n 31).
    - rewrite Z.mod_pow2_bits_low by lia. now rewrite low32_bits by lia.
    - rewrite <- (Z.mod_small a (2 ^ 31)) by lia. rewrite Z.mod_pow2_bits_high by lia. reflexivity. }
  rewrite E. pose proof (zop_range BAnd 31 a (b mod 2 ^ 31) ltac:(lia) Ra (Z.mod_pos_bound b (2 ^ 31) ltac:(lia))) as R.
  cbn [zop] in R. lia.
Qed.
(** Integers from 0 up to 2^53 keep all their bits (more than ECMAScript's 32). *)
Theorem bitwise_wide strict o x y a b : between 0 (2 ^ 53) x -> between 0 (2 ^ 53) y -> int_part x a -> int_part y b ->
  exists r, bitwise strict o x y = Some r /\ is_int r (zop o a b).
Proof.
  intros Hx Hy (qx & Ex & ->) (qy & Ey & ->).
  destruct (between_part 0 (2 ^ 53) x ltac:(lia) ltac:(lia) Hx) as (a & Ia & Pa & Ra).
  destruct (between_part 0 (2 ^ 53) y ltac:(lia) ltac:(lia) Hy) as (b & Ib & Pb & Rb).
  pose proof (integer_part_value x qx Ex) as E1. pose proof (integer_part_value y qy Ey) as E2.
  assert (a = truncate qx) as <- by congruence. assert (b = truncate qy) as <- by congruence.
  rewrite (bitwise_part strict o x y a b Ia Ib) by lia. eexists. split; [reflexivity|].
  rewrite !Z.mod_small by lia. apply of_int_exact. pose proof (zop_range o 53 a b ltac:(lia) Ra Rb). lia.
Qed.
(** The shifts, of an int by any count. *)
Theorem shifts_js x y : between (- 2 ^ 31) (2 ^ 31) x -> between (- 2 ^ 52) (2 ^ 52) y ->
  is_int (shf Left x y) (js_shl x y) /\ is_int (shf Right x y) (js_shr x y) /\ is_int (shf URight x y) (js_ushr x y).
Proof.
  intros Hx Hy. destruct (between_part (- 2 ^ 31) (2 ^ 31) x ltac:(lia) ltac:(lia) Hx) as (a & Ia & Pa & Ra).
  destruct (between_part (- 2 ^ 52) (2 ^ 52) y ltac:(lia) ltac:(lia) Hy) as (b & Ib & Pb & Rb).
  unfold shf, js_shl, js_shr, js_ushr.
  rewrite (int32_part x a Pa), (uint32_part x a Pa), (uint32_part y b Pb), (low32_id a Ra).
  rewrite (cast_int_part (to_oint32 x) a) by (try apply to_oint32_part; auto; lia).
  unfold cast_uint. rewrite (to_wide_part (to_oint32 y) b) by (try apply to_oint32_part; auto; lia).
  rewrite land31. set (k := (b mod 2 ^ 32) mod 32).
  assert (K : 0 <= k < 32) by (apply Z.mod_pos_bound; lia).
  assert (K2 : 1 <= 2 ^ k) by (assert (0 < 2 ^ k) by (apply Z.pow_pos_nonneg; lia); lia).
  rewrite !Z.shiftr_div_pow2, Z.shiftl_mul_pow2, wrap_low by lia.
  split; [|split]; apply of_int_exact.
  - pose proof (low32_range (a * 2 ^ k)). lia.
  - assert (- 2 ^ 31 <= a / 2 ^ k < 2 ^ 31).
    { split; [apply Z.div_le_lower_bound; nia|apply Z.div_lt_upper_bound; nia]. }
    lia.
  - pose proof (Z.mod_pos_bound a (2 ^ 32) ltac:(lia)) as M.
    assert (0 <= (a mod 2 ^ 32) / 2 ^ k < 2 ^ 32).
    { split; [apply Z.div_pos; lia|apply Z.div_lt_upper_bound; nia]. }
    lia.
Qed.
(** ~ of an int. *)
Theorem bnot_js strict x : between (- 2 ^ 31) (2 ^ 31) x -> exists r, bnot strict x = Some r /\ is_int r (Z.lnot (int32 x)).
Proof.
  intros Hx. destruct (between_part (- 2 ^ 31) (2 ^ 31) x ltac:(lia) ltac:(lia) Hx) as (a & Ia & Pa & Ra).
  unfold bnot. pose proof (to_oint32_part x a Ia ltac:(lia)) as T. rewrite (nan_part _ _ T), andb_false_r.
  eexists. split; [reflexivity|]. rewrite (int32_part x a Pa), (low32_id a Ra), (cast_int_part _ a T) by lia.
  apply of_int_exact. unfold Z.lnot. lia.
Qed.
(** ~~x and x|0 cut off the fraction. *)
Corollary or_zero strict x a : between 0 (2 ^ 53) x -> int_part x a ->
  exists r, bitwise strict BOr x (S754_zero false) = Some r /\ is_int r a.
Proof.
  intros Hx Pa.
  destruct (bitwise_wide strict BOr x (S754_zero false) a 0 Hx) as (r & E & I).
  - split; [exact Logic.I|]. exists 0%Q. split; [reflexivity|]. split; [apply Qle_refl|reflexivity].
  - exact Pa.
  - exists 0%Q. split; reflexivity.
  - exists r. split; [exact E|]. cbn [zop] in I. rewrite Z.lor_0_r in I. exact I.
Qed.

(** Outside of these ranges they are not those of ECMAScript: -1 | 0 is 2^64, 2^32 ^ 0 is 2^32 and
    4294967295 >>> 0 is 2147483648. *)
Definition num_neg1 : num := of_int (-1).
Theorem or_negative_refuted : bitwise true BOr num_neg1 (S754_zero false) = Some (of_int (2 ^ 64)) /\
  int32 num_neg1 = -1 /\ int32 (S754_zero false) = 0.
Proof. vm_compute. auto. Qed.
Theorem xor_large_refuted : bitwise true BXor (of_int (2 ^ 32)) (S754_zero false) = Some (of_int (2 ^ 32)) /\
  int32 (of_int (2 ^ 32)) = 0.
Proof. vm_compute. auto. Qed.
Theorem ushr_large_refuted : shf URight (of_int 4294967295) (S754_zero false) = of_int 2147483648 /\
  js_ushr (of_int 4294967295) (S754_zero false) = 4294967295.
Proof. vm_compute. auto. Qed.

(** Concrete cases that meet the hypotheses: 6.5 & -2, -5 >>> 1, 1 << 31 *)
Definition num_6_5 : num := S754_finite false 7318349394477056 (-50).
Example six_between : between 0 (2 ^ 31) num_6_5.
Proof. split; [left; lia|]. eexists. split; [reflexivity|]. vm_compute. split; congruence. Qed.
Example and_case : bitwise true BAnd num_6_5 (of_int (-2)) = Some (of_int 6).
Proof. vm_compute. reflexivity. Qed.
Example and_hyp : between (- 2 ^ 63) (2 ^ 63) (of_int (-2)).
Proof. split; [left; vm_compute; split; [split; congruence|split; congruence]|]. eexists. split; [reflexivity|]. vm_compute. split; congruence. Qed.
Example shift_case : shf URight (of_int (-5)) (of_int 1) = of_int 2147483645 /\ shf Left (of_int 1) (of_int 31) = of_int (- 2 ^ 31).
Proof. vm_compute. auto. Qed.
