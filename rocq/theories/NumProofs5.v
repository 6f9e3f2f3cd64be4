(** The double depends on the number only; fifteen digits survive *)
From Coq Require Import ZArith QArith Qpower Qabs Qround List Lia Lqa Bool SpecFloat.
From Verif Require Import UtfModel Bits NumModel NumSpec NumProofs NumProofs2 NumProofs3 NumProofs4.
Import ListNotations.
Local Open Scope Q_scope.

Lemma round_even_mult : forall n d c, (0 < d)%Z -> (0 < c)%Z -> round_even (n * c) (d * c) = round_even n d.
Proof.
  intros n d c Hd Hc. unfold round_even. rewrite Z.div_mul_cancel_r, Z.mul_mod_distr_r by lia. cbv zeta.
  pose proof (Z.mod_pos_bound n d Hd). set (r := (n mod d)%Z) in *. set (qq := (n / d)%Z).
  replace (2 * (r * c))%Z with (2 * r * c)%Z by lia.
  destruct (Z.ltb_spec (2 * r * c) (d * c)), (Z.ltb_spec (2 * r) d); try reflexivity; try nia.
  destruct (Z.ltb_spec (d * c) (2 * r * c)), (Z.ltb_spec d (2 * r)); try reflexivity; nia.
Qed.
Lemma q_mult : forall n d c, (0 < d)%Z -> (0 < c)%Z -> q (n * c, d * c)%Z == q (n, d).
Proof.
  intros n d c Hd Hc. apply q_cross; cbn [fst snd]; [nia|]. rewrite !inject_Z_mult. rewrite <- (q_mul n d Hd). ring.
Qed.
Lemma flog2_mult : forall n d c, (0 < n)%Z -> (0 < d)%Z -> (0 < c)%Z -> flog2 (n * c) (d * c) = flog2 n d.
Proof.
  intros n d c Hn Hd Hc. destruct (flog2_ok n d Hn Hd) as [A B]. destruct (flog2_ok (n * c) (d * c) ltac:(nia) ltac:(nia)) as [C D].
  rewrite q_mult in C, D by auto.
  assert (X : 2 ^ flog2 n d < 2 ^ (flog2 (n * c) (d * c) + 1)) by lra.
  assert (Y : 2 ^ flog2 (n * c) (d * c) < 2 ^ (flog2 n d + 1)) by lra.
  apply p2_lt_inv in X, Y. lia.
Qed.
Lemma core_mult : forall n d c, (0 < n)%Z -> (0 < d)%Z -> (0 < c)%Z -> core (n * c) (d * c) = core n d.
Proof.
  intros n d c Hn Hd Hc. unfold core. rewrite flog2_mult by auto. cbv zeta. set (e := Z.max (-1074) (flog2 n d - 52)).
  unfold scale. cbn [fst snd]. destruct (Z.leb_spec 0 (- e)).
  - replace (n * c * 2 ^ (- e))%Z with (n * 2 ^ (- e) * c)%Z by lia. rewrite round_even_mult by auto. reflexivity.
  - replace (d * c * 2 ^ (- - e))%Z with (d * 2 ^ (- - e) * c)%Z by lia.
    assert (0 < 2 ^ (- - e))%Z by (apply Z.pow_pos_nonneg; lia). rewrite round_even_mult by nia. reflexivity.
Qed.
Lemma to_double_q : forall neg n d n' d', (0 <= n)%Z -> (0 < d)%Z -> (0 <= n')%Z -> (0 < d')%Z -> q (n, d) == q (n', d') -> to_double neg n d = to_double neg n' d'.
Proof.
  intros neg n d n' d' Hn Hd Hn' Hd' E.
  assert (X : (n * d' = n' * d)%Z).
  { assert (Y : inject_Z (n * d') == inject_Z (n' * d)).
    { rewrite !inject_Z_mult, <- (q_mul n d Hd), <- (q_mul n' d' Hd'), E. ring. }
    unfold Qeq in Y. cbn in Y. lia. }
  destruct (Z.eq_dec n 0) as [->|N].
  - assert (n' = 0%Z) as -> by nia. reflexivity.
  - assert (N' : n' <> 0%Z) by nia. rewrite !to_double_core by lia.
    rewrite <- (core_mult n d d') by lia. rewrite <- (core_mult n' d' d) by lia. rewrite X, (Z.mul_comm d d'). reflexivity.
Qed.

(** * Half a unit in the last place *)
Lemma to_double_rel : forall n d, (0 < n)%Z -> (0 < d)%Z -> 2 ^ (-1022) <= q (n, d) -> q (n, d) < max_finite ->
  forall neg, exists m e, to_double neg n d = S754_finite neg m e /\ (2 ^ 52 <= Zpos m < 2 ^ 53)%Z /\ mant m e /\
    Qabs (q (n, d) - inject_Z (Zpos m) * 2 ^ e) <= 2 ^ (-53) * q (n, d).
Proof.
  intros n d Hn Hd Hlo Hhi neg. destruct (to_double_pos n d Hn Hd) as [NR _]. specialize (NR Hhi).
  rewrite to_double_core in * by auto. destruct (core n d) as [K e] eqn:EC. cbn [fst snd] in *.
  destruct (core_ok n d Hn Hd K e EC) as (K0 & A1 & A2 & A3 & _ & _ & A4 & A5 & A6 & _).
  destruct (flog2_ok n d Hn Hd) as [L1 L2]. set (l := flog2 n d) in *. set (e0 := Z.max (-1074) (l - 52)) in *.
  assert (LB : (-1022 < l + 1)%Z) by (apply p2_lt_inv; lra).
  assert (EE : (e0 = l - 52)%Z) by (unfold e0; lia).
  assert (K52 : (2 ^ 52 <= K0)%Z).
  { destruct (Z.eq_dec e0 (-1074)) as [E|E]; [|apply A6; unfold e0 in *; lia].
    rewrite E in *. apply Qabs_Qle_condition in A3. assert (U := p2_pos (-1074)).
    assert (B : (2 ^ 52 - (1 # 2)) * 2 ^ (-1074) <= inject_Z K0 * 2 ^ (-1074)).
    { assert (W : 2 ^ 52 * 2 ^ (-1074) == 2 ^ (-1022)) by (rewrite <- p2_plus; reflexivity). lra. }
    apply (proj1 (Qmult_le_r _ _ _ U)) in B. rewrite <- p2_Z in B by lia.
    assert (C : inject_Z (2 ^ 52 + -1) < inject_Z K0) by (rewrite inject_Z_plus; change (inject_Z (-1)) with (-1); lra).
    apply inj_lt_inv in C. lia. }
  assert (K1 : (2 ^ 52 <= K < 2 ^ 53)%Z) by lia.
  destruct K as [|m|m]; try lia. assert (ER : (971 <? e)%Z = false).
  { destruct (971 <? e)%Z; [|reflexivity]. destruct NR as (w & NR & _). discriminate. }
  rewrite ER in *. exists m, e. split; [reflexivity|]. split; [exact K1|]. apply Z.ltb_ge in ER.
  split; [left; lia|]. rewrite A1. eapply Qle_trans; [exact A3|].
  assert (X : (1 # 2) * 2 ^ e0 == 2 ^ (-53) * 2 ^ l).
  { assert (Y : 2 ^ l == 2 ^ e0 * 2 ^ 52) by (rewrite <- p2_plus; replace (e0 + 52)%Z with l by lia; reflexivity). rewrite Y.
    setoid_replace (2 ^ (-53) * (2 ^ e0 * 2 ^ 52)) with ((2 ^ (-53) * 2 ^ 52) * 2 ^ e0) by ring. rewrite <- p2_plus. reflexivity. }
  rewrite X. apply Qmult_le_l; [apply p2_pos | exact L1].
Qed.

(** * Two near numbers with fifteen digits are equal *)
Lemma sig_near : forall w w', sig_digits 15 w -> sig_digits 15 w' ->
  Qabs (w - w') <= 10 ^ (-15) * Qabs w -> Qabs (w - w') <= 10 ^ (-15) * Qabs w' -> w == w'.
Proof.
  assert (W : forall w w' k j k' j', (Z.abs k < 10 ^ 15)%Z -> w == inject_Z k * 10 ^ j -> (j <= j')%Z -> w' == inject_Z k' * 10 ^ j' ->
    Qabs (w - w') <= 10 ^ (-15) * Qabs w -> w == w').
  { intros w w' k j k' j' Hk E Hj E' H. assert (P := p10_pos j).
    assert (D : w - w' == inject_Z (k - k' * 10 ^ (j' - j)) * 10 ^ j).
    { unfold Zminus. set (jj := (j' + - j)%Z). rewrite inject_Z_plus, inject_Z_opp, inject_Z_mult, p10_Z by (unfold jj; lia).
      rewrite E, E'. replace j' with (jj + j)%Z at 1 by (unfold jj; lia). rewrite p10_plus. ring. }
    set (z := (k - k' * 10 ^ (j' - j))%Z) in *. destruct (Z.eq_dec z 0) as [Z0|Z0].
    - rewrite Z0 in D. change (inject_Z 0) with 0 in D. lra.
    - exfalso. rewrite D, E in H. rewrite !Qabs_Qmult, (Qabs_pos (10 ^ j)) in H by lra.
      assert (H' : Qabs (inject_Z z) * 10 ^ j <= (10 ^ (-15) * Qabs (inject_Z k)) * 10 ^ j) by (rewrite <- Qmult_assoc; exact H).
      apply (proj1 (Qmult_le_r _ _ _ P)) in H'.
      assert (Az : forall y, Qabs (inject_Z y) == inject_Z (Z.abs y)) by (intros; reflexivity).
      rewrite !Az in H'. assert (Y : inject_Z 1 <= inject_Z (Z.abs z)) by (apply inj_le'; lia). change (inject_Z 1) with 1 in Y.
      apply inj_lt' in Hk. change (inject_Z (10 ^ 15)) with 1000000000000000 in Hk. change (10 ^ (-15)) with (1 # 1000000000000000) in H'. lra. }
  intros w w' (k & j & Hk & E) (k' & j' & Hk' & E') H1 H2. destruct (Z.le_ge_cases j j').
  - apply (W w w' k j k' j'); auto.
  - symmetry. apply (W w' w k' j' k j); auto. rewrite Qabs_Qminus. auto.
Qed.
Lemma sig_integer : forall w z, sig_digits 15 w -> Qabs w < 2 ^ 53 -> Qabs (w - inject_Z z) <= 2 ^ (-53) * Qabs w -> w == inject_Z z.
Proof.
  intros w z (k & j & Hk & E) HB H. assert (P := p10_pos j). destruct (Z.le_gt_cases 0 j) as [Hj|Hj].
  - assert (W : w == inject_Z (k * 10 ^ j)) by (rewrite inject_Z_mult, p10_Z by auto; exact E).
    set (y := (k * 10 ^ j)%Z) in *. assert (L : Qabs (w - inject_Z z) < 1).
    { change (2 ^ 53) with 9007199254740992 in HB. change (2 ^ (-53)) with (1 # 9007199254740992) in H. lra. }
    rewrite W in *. assert (D : inject_Z y - inject_Z z == inject_Z (y - z)) by (unfold Zminus; rewrite inject_Z_plus, inject_Z_opp; reflexivity).
    rewrite D in L. change (Qabs (inject_Z (y - z))) with (inject_Z (Z.abs (y - z))) in L. change 1 with (inject_Z 1) in L. apply inj_lt_inv in L.
    replace y with z by lia. reflexivity.
  - assert (D : w - inject_Z z == inject_Z (k - z * 10 ^ (- j)) * 10 ^ j).
    { unfold Zminus. set (jj := (- j)%Z). rewrite inject_Z_plus, inject_Z_opp, inject_Z_mult, p10_Z by (unfold jj; lia).
      rewrite E. assert (O : 10 ^ jj * 10 ^ j == 1) by (rewrite <- p10_plus; unfold jj; replace (- j + j)%Z with 0%Z by lia; reflexivity).
      setoid_replace ((inject_Z k + - (inject_Z z * 10 ^ jj)) * 10 ^ j) with (inject_Z k * 10 ^ j - inject_Z z * (10 ^ jj * 10 ^ j)) by ring. rewrite O. ring. }
    set (y := (k - z * 10 ^ (- j))%Z) in *. destruct (Z.eq_dec y 0) as [Y0|Y0].
    + rewrite Y0 in D. change (inject_Z 0) with 0 in D. lra.
    + exfalso. rewrite D, E in H. rewrite !Qabs_Qmult, (Qabs_pos (10 ^ j)) in H by lra.
      assert (H' : Qabs (inject_Z y) * 10 ^ j <= (2 ^ (-53) * Qabs (inject_Z k)) * 10 ^ j) by (rewrite <- Qmult_assoc; exact H).
      apply (proj1 (Qmult_le_r _ _ _ P)) in H'. change (Qabs (inject_Z y)) with (inject_Z (Z.abs y)) in H'. change (Qabs (inject_Z k)) with (inject_Z (Z.abs k)) in H'.
      assert (Y : inject_Z 1 <= inject_Z (Z.abs y)) by (apply inj_le'; lia). change (inject_Z 1) with 1 in Y.
      apply inj_lt' in Hk. change (inject_Z (10 ^ 15)) with 1000000000000000 in Hk. change (2 ^ (-53)) with (1 # 9007199254740992) in H'. lra.
Qed.
