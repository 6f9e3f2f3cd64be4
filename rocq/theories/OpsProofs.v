(** * Proofs about the bitwise and shift operators *)
From Coq Require Import ZArith QArith Qpower Qabs Qround Lia Lqa Bool SpecFloat.
Require Import Verif.NumModel Verif.NumSpec Verif.NumProofs Verif.NumProofs2 Verif.OpsModel Verif.OpsSpec.
Local Open Scope Z_scope.

Lemma truncate_comp p q : (p == q)%Q -> truncate p = truncate q.
Proof.
  intros E. unfold truncate. rewrite (Qfloor_comp _ _ E).
  assert (E' : (- p == - q)%Q) by (rewrite E; reflexivity). rewrite (Qfloor_comp _ _ E').
  destruct (Qle_bool 0 p) eqn:A, (Qle_bool 0 q) eqn:B; auto; exfalso.
  - apply Qle_bool_iff in A. rewrite E in A. apply Qle_bool_iff in A. congruence.
  - apply Qle_bool_iff in B. rewrite <- E in B. apply Qle_bool_iff in B. congruence.
Qed.
Lemma truncate_int z : truncate (inject_Z z) = z.
Proof.
  unfold truncate. destruct (Qle_bool 0 (inject_Z z)) eqn:A; [apply Qfloor_Z|].
  rewrite <- inject_Z_opp, Qfloor_Z. lia.
Qed.
Lemma frac_q m e : (q (frac m e) == inject_Z (Zpos m) * 2 ^ e)%Q.
Proof.
  unfold frac. rewrite q_scale by (cbn; lia).
  assert (E : (q (Zpos m, 1%Z) == inject_Z (Zpos m))%Q) by (unfold q; cbn [fst snd]; field).
  rewrite E. reflexivity.
Qed.
Lemma integer_part_value x qv : value x = Some qv -> integer_part x = Some (truncate qv).
Proof.
  destruct x as [s|s| |s m e]; cbn [value integer_part]; try discriminate.
  - intros H. injection H as <-. reflexivity.
  - intros H. injection H as <-. pose proof (frac_q m e) as F. destruct (frac m e) as [n d].
    f_equal.
    assert (FL : Qfloor (inject_Z (Zpos m) * 2 ^ e) = n / d).
    { rewrite <- (Qfloor_comp _ _ F). unfold q. cbn [fst snd]. symmetry. apply Zdiv_Qdiv. }
    assert (P : (0 < inject_Z (Zpos m) * 2 ^ e)%Q).
    { pose proof (p2_pos e). assert (0 < inject_Z (Zpos m))%Q by (apply inj_pos; lia). nra. }
    unfold truncate. destruct s.
    + assert (N : (- (inject_Z (Zneg m) * 2 ^ e) == inject_Z (Zpos m) * 2 ^ e)%Q).
      { change (Zneg m) with (- Zpos m)%Z. rewrite inject_Z_opp. ring. }
      destruct (Qle_bool 0 (inject_Z (Zneg m) * 2 ^ e)) eqn:A.
      * apply Qle_bool_iff in A. exfalso. lra.
      * rewrite (Qfloor_comp _ _ N), FL. reflexivity.
    + destruct (Qle_bool 0 (inject_Z (Zpos m) * 2 ^ e)) eqn:A; [now rewrite FL|].
      assert (B : Qle_bool 0 (inject_Z (Zpos m) * 2 ^ e) = true) by (apply Qle_bool_iff; lra). congruence.
Qed.
Lemma truncate_range lo hi qv : lo <= 0 -> 0 <= hi -> (inject_Z lo <= qv)%Q -> (qv < inject_Z hi)%Q ->
  lo <= truncate qv < hi \/ truncate qv = 0.
Proof.
  intros H1 H2 L U. unfold truncate. destruct (Qle_bool 0 qv) eqn:A.
  - apply Qle_bool_iff in A. left. pose proof (Qfloor_le qv) as F. pose proof (Qlt_floor qv) as G. split.
    + assert (0 <= Qfloor qv); [|lia]. change 0 with (Qfloor 0). apply Qfloor_resp_le. exact A.
    + apply inj_lt_inv. lra.
  - assert (N : (qv < 0)%Q) by (apply Qnot_le_lt; intros B; apply Qle_bool_iff in B; congruence).
    pose proof (Qfloor_le (- qv)) as F.
    assert (P : 0 <= Qfloor (- qv)) by (change 0 with (Qfloor 0); apply Qfloor_resp_le; lra).
    assert (Q : Qfloor (- qv) <= - lo).
    { apply inj_le_inv. rewrite inject_Z_opp. lra. }
    destruct (Z.eq_dec hi 0) as [->|]; [|left; lia].
    destruct (Z.eq_dec (Qfloor (- qv)) 0) as [E|]; [right; lia|left; lia].
Qed.
Lemma between_part lo hi x : lo <= 0 -> 0 < hi -> between lo hi x ->
  exists z, integer_part x = Some z /\ int_part x z /\ lo <= z < hi.
Proof.
  intros H1 H2 (_ & qv & E & L & U). exists (truncate qv). split; [now apply integer_part_value|].
  split; [exists qv; auto|]. destruct (truncate_range lo hi qv H1 ltac:(lia) L U) as [H|H]; lia.
Qed.

(** Integers up to 2^53 are doubles. *)
Lemma int_double z : 0 < z < 2 ^ 53 -> exists m e, mant m e /\ (inject_Z (Zpos m) * 2 ^ e == inject_Z z)%Q.
Proof.
  intros H. pose proof (Z.log2_spec z ltac:(lia)) as [L U]. set (l := Z.log2 z) in *.
  assert (Hl : 0 <= l <= 52).
  { split; [apply Z.log2_nonneg|]. assert (l < 53); [|lia]. apply Z.log2_lt_pow2; lia. }
  set (k := 52 - l).
  assert (P : 0 < z * 2 ^ k) by (apply Z.mul_pos_pos; [lia|apply Z.pow_pos_nonneg; unfold k; lia]).
  destruct (z * 2 ^ k) as [|m|m] eqn:E; try lia. exists m, (- k). split.
  - left. rewrite <- E. split; [|unfold k; lia].
    assert (E1 : 2 ^ 52 = 2 ^ l * 2 ^ k) by (rewrite <- Z.pow_add_r by (unfold k; lia); f_equal; unfold k; lia).
    assert (E2 : 2 ^ 53 = 2 ^ Z.succ l * 2 ^ k) by (rewrite <- Z.pow_add_r by (unfold k; lia); f_equal; unfold k; lia).
    assert (0 < 2 ^ k) by (apply Z.pow_pos_nonneg; unfold k; lia). rewrite E1, E2. split; nia.
  - rewrite <- E, inject_Z_mult. rewrite (p2_Z k) by (unfold k; lia).
    rewrite <- Qmult_assoc, <- p2_plus. replace (k + - k) with 0 by lia. change (2 ^ 0)%Q with 1%Q. ring.
Qed.
Lemma of_int_exact z : Z.abs z < 2 ^ 53 -> is_int (of_int z) z.
Proof.
  intros H. unfold of_int. destruct (Z.eq_dec z 0) as [->|N].
  { split; [exact Logic.I|]. exists 0%Q. split; reflexivity. }
  destruct (int_double (Z.abs z) ltac:(lia)) as (m & e & M & V).
  destruct (to_double_ok (z <? 0) (Z.abs z) 1 ltac:(lia) ltac:(lia)) as [A _].
  assert (E : (q (Z.abs z, 1%Z) == inject_Z (Z.abs z))%Q) by (unfold q; cbn [fst snd]; field).
  destruct A as (qv & EV & D & B & _).
  { rewrite E. unfold max_finite. apply inj_lt'. assert (2 ^ 53 < 2 ^ 1024 - 2 ^ 970) by (vm_compute; reflexivity). lia. }
  split; [exact D|]. exists qv. split; [exact EV|].
  destruct (Z.ltb_spec z 0) as [Hz|Hz].
  - specialize (B (S754_finite true m e) _ M eq_refl).
    assert (W : (inject_Z (Zneg m) * 2 ^ e == inject_Z z)%Q).
    { change (Zneg m) with (- Zpos m)%Z. rewrite inject_Z_opp.
      assert (X : (- inject_Z (Zpos m) * 2 ^ e == - (inject_Z (Zpos m) * 2 ^ e))%Q) by ring. rewrite X, V, <- inject_Z_opp.
      replace (- Z.abs z) with z by lia. reflexivity. }
    rewrite W, E in B. assert (Y : (- inject_Z (Z.abs z) == inject_Z z)%Q) by (rewrite <- inject_Z_opp; replace (- Z.abs z) with z by lia; reflexivity).
    rewrite Y in B. assert (Z0 : (inject_Z z - inject_Z z == 0)%Q) by ring. rewrite Z0 in B. change (Qabs 0) with 0%Q in B.
    apply Qabs_Qle_condition in B. lra.
  - specialize (B (S754_finite false m e) _ M eq_refl).
    rewrite V, E in B. replace (Z.abs z) with z in B by lia.
    assert (Z0 : (inject_Z z - inject_Z z == 0)%Q) by ring. rewrite Z0 in B. change (Qabs 0) with 0%Q in B.
    apply Qabs_Qle_condition in B. lra.
Qed.
Lemma of_int_part z : Z.abs z < 2 ^ 53 -> integer_part (of_int z) = Some z.
Proof.
  intros H. destruct (of_int_exact z H) as (_ & qv & E & V). rewrite (integer_part_value _ _ E).
  f_equal. rewrite (truncate_comp _ _ V). apply truncate_int.
Qed.

(** ** The conversions *)
Lemma to_wide_part x z : integer_part x = Some z -> - 2 ^ 63 <= z < 2 ^ 63 -> to_wide x = z.
Proof.
  destruct x as [s|s| |s m e]; cbn [integer_part to_wide]; try discriminate.
  - intros H _. now injection H.
  - destruct (frac m e) as [n d]. intros H HR. injection H as <-.
    destruct s; (match goal with |- context [Z.leb ?a ?v && Z.ltb ?v ?b] =>
      destruct (Z.leb_spec a v), (Z.ltb_spec v b) end; cbn [andb]; lia).
Qed.
Lemma to_oint32_part x z : integer_part x = Some z -> Z.abs z < 2 ^ 53 -> integer_part (to_oint32 x) = Some z.
Proof.
  intros H HR. unfold to_oint32. destruct (is_normal x); [|exact H].
  rewrite (to_wide_part x z H) by lia. now apply of_int_part.
Qed.
Lemma cast_int_part x z : integer_part x = Some z -> - 2 ^ 31 <= z < 2 ^ 31 -> cast_int x = z.
Proof.
  intros H HR. unfold cast_int. rewrite H. destruct (Z.leb_spec (- 2 ^ 31) z), (Z.ltb_spec z (2 ^ 31)); cbn [andb]; lia.
Qed.
Lemma cast_u64_part x z : integer_part x = Some z -> - 2 ^ 63 <= z < 2 ^ 63 -> cast_u64 x = z mod 2 ^ 64.
Proof.
  intros H HR. unfold cast_u64. rewrite H. destruct (Z.ltb_spec z (2 ^ 63)); [|lia].
  destruct (Z.ltb_spec z (- 2 ^ 63)); [lia|reflexivity].
Qed.

Lemma uint32_part x z : int_part x z -> uint32 x = z mod 2 ^ 32.
Proof. intros (qv & E & ->). unfold uint32. now rewrite E. Qed.
Lemma int32_part x z : int_part x z -> int32 x = low32 z.
Proof. intros H. unfold int32, low32. now rewrite (uint32_part x z H). Qed.
Lemma low32_id z : - 2 ^ 31 <= z < 2 ^ 31 -> low32 z = z.
Proof.
  intros H. unfold low32. destruct (Z.ltb_spec z 0).
  - assert (E : z mod 2 ^ 32 = z + 2 ^ 32) by (symmetry; apply (Z.mod_unique_pos _ _ (-1)); lia).
    rewrite E. destruct (Z.ltb_spec (z + 2 ^ 32) (2 ^ 31)); lia.
  - rewrite Z.mod_small by lia. destruct (Z.ltb_spec z (2 ^ 31)); lia.
Qed.
Lemma low32_mod z : low32 z mod 2 ^ 32 = z mod 2 ^ 32.
Proof.
  unfold low32. destruct (z mod 2 ^ 32 <? 2 ^ 31).
  - now rewrite Z.mod_mod by lia.
  - replace (z mod 2 ^ 32 - 2 ^ 32) with (z mod 2 ^ 32 + -1 * 2 ^ 32) by lia. rewrite Z.mod_add by lia. now rewrite Z.mod_mod by lia.
Qed.
Lemma low32_bits z i : 0 <= i < 32 -> Z.testbit (low32 z) i = Z.testbit z i.
Proof.
  intros H. rewrite <- (Z.mod_pow2_bits_low (low32 z) 32) by lia. rewrite low32_mod. apply Z.mod_pow2_bits_low. lia.
Qed.
Lemma wrap_low z : wrap 32 z = low32 z.
Proof.
  unfold wrap, low32. change (2 ^ (32 - 1)) with (2 ^ 31).
  pose proof (Z.div_mod z (2 ^ 32) ltac:(lia)) as D. pose proof (Z.mod_pos_bound z (2 ^ 32) ltac:(lia)) as B.
  set (r := z mod 2 ^ 32) in *. set (k := z / 2 ^ 32) in *.
  destruct (Z.ltb_spec r (2 ^ 31)).
  - assert (E : (z + 2 ^ 31) mod 2 ^ 32 = r + 2 ^ 31) by (symmetry; apply (Z.mod_unique_pos _ _ k); lia). lia.
  - assert (E : (z + 2 ^ 31) mod 2 ^ 32 = r - 2 ^ 31) by (symmetry; apply (Z.mod_unique_pos _ _ (k + 1)); lia). lia.
Qed.
Lemma low32_range z : - 2 ^ 31 <= low32 z < 2 ^ 31.
Proof.
  unfold low32. pose proof (Z.mod_pos_bound z (2 ^ 32) ltac:(lia)). destruct (Z.ltb_spec (z mod 2 ^ 32) (2 ^ 31)); lia.
Qed.

(** ** The operators on integer parts *)
Lemma zop_range o k a b : 0 <= k -> 0 <= a < 2 ^ k -> 0 <= b < 2 ^ k -> 0 <= zop o a b < 2 ^ k.
Proof.
  intros Hk Ha Hb.
  assert (N : 0 <= zop o a b).
  { destruct o; cbn [zop]; [apply Z.land_nonneg; lia|apply Z.lor_nonneg; lia|apply Z.lxor_nonneg; lia]. }
  split; [exact N|]. rewrite <- (Z.mod_small a (2 ^ k)), <- (Z.mod_small b (2 ^ k)) by lia.
  assert (E : zop o (a mod 2 ^ k) (b mod 2 ^ k) = zop o (a mod 2 ^ k) (b mod 2 ^ k) mod 2 ^ k).
  { apply Z.bits_inj'. intros n Hn. destruct (Z.lt_ge_cases n k).
    - rewrite (Z.mod_pow2_bits_low (zop o _ _)) by lia. reflexivity.
    - rewrite (Z.mod_pow2_bits_high (zop o _ _)) by lia.
      destruct o; cbn [zop]; rewrite ?Z.land_spec, ?Z.lor_spec, ?Z.lxor_spec, !Z.mod_pow2_bits_high by lia; reflexivity. }
  rewrite E. apply Z.mod_pos_bound. apply Z.pow_pos_nonneg; lia.
Qed.
Lemma nan_part x z : integer_part x = Some z -> is_nan x = false.
Proof. destruct x; cbn; try discriminate; reflexivity. Qed.
Lemma bitwise_part st o x y a b : integer_part x = Some a -> integer_part y = Some b ->
  - 2 ^ 63 <= a < 2 ^ 63 -> - 2 ^ 63 <= b < 2 ^ 63 ->
  bitwise st o x y = Some (of_int (zop o (a mod 2 ^ 64) (b mod 2 ^ 64))).
Proof.
  intros Hx Hy Ha Hb. unfold bitwise. rewrite (nan_part x a Hx), (nan_part y b Hy), andb_false_r.
  now rewrite (cast_u64_part x a), (cast_u64_part y b).
Qed.
Lemma land_low a v : 0 <= a < 2 ^ 31 -> Z.land a (v mod 2 ^ 64) = Z.land a (low32 v).
Proof.
  intros Ha. apply Z.bits_inj'. intros n Hn. rewrite !Z.land_spec. destruct (Z.lt_ge_cases n 31).
  - rewrite Z.mod_pow2_bits_low by lia. now rewrite low32_bits by lia.
  - rewrite <- (Z.mod_small a (2 ^ 31)) by lia. rewrite Z.mod_pow2_bits_high by lia. reflexivity.
Qed.
Lemma land31 n : Z.land n 31 = n mod 32.
Proof. change 31 with (Z.ones 5). rewrite Z.land_ones by lia. reflexivity. Qed.
Lemma mod32 z : (z mod 2 ^ 32) mod 32 = z mod 32.
Proof. symmetry. apply Znumtheory.Zmod_div_mod; try lia. exists (2 ^ 27). reflexivity. Qed.
