(** Rounding a fraction to a double *)
From Coq Require Import ZArith QArith Qpower Qabs Qround List Lia Lqa Bool SpecFloat.
From Verif Require Import UtfModel Bits NumModel NumSpec NumProofs.
Import ListNotations.
Local Open Scope Q_scope.

Lemma p2_pos : forall k, 0 < 2 ^ k.
Proof. intros k. apply (pw_pos 2 k eq_refl). Qed.
Lemma p2_plus : forall a b, 2 ^ (a + b) == 2 ^ a * 2 ^ b.
Proof. intros. apply (pw_plus 2 a b eq_refl). Qed.
Lemma p2_Z : forall a, (0 <= a)%Z -> inject_Z (2 ^ a) == 2 ^ a.
Proof. intros. symmetry. apply (pw_Z 2). auto. Qed.
Lemma p2_le : forall a b, (a <= b)%Z -> 2 ^ a <= 2 ^ b.
Proof. intros. apply (pw_le 2); lia. Qed.
Lemma p2_lt : forall a b, (a < b)%Z -> 2 ^ a < 2 ^ b.
Proof. intros. apply (pw_lt 2); lia. Qed.
Lemma inj_le' : forall a b : Z, (a <= b)%Z -> inject_Z a <= inject_Z b.
Proof. intros a b H. apply (proj1 (inj_le a b)). auto. Qed.
Lemma inj_lt' : forall a b : Z, (a < b)%Z -> inject_Z a < inject_Z b.
Proof. intros a b H. apply (proj1 (inj_lt a b)). auto. Qed.
Lemma inj_le_inv : forall a b : Z, inject_Z a <= inject_Z b -> (a <= b)%Z.
Proof. intros a b H. apply (proj2 (inj_le a b)). auto. Qed.
Lemma inj_lt_inv : forall a b : Z, inject_Z a < inject_Z b -> (a < b)%Z.
Proof. intros a b H. apply (proj2 (inj_lt a b)). auto. Qed.
Lemma q_pow2 : forall x, q (scale 2 (1, 1)%Z x) == 2 ^ x.
Proof. intros x. rewrite q_scale by (cbn; lia). change (q (1, 1)%Z) with (1 / 1). change (inject_Z 2) with 2. field. Qed.
Lemma q_mul : forall n d, (0 < d)%Z -> q (n, d) * inject_Z d == inject_Z n.
Proof. intros n d H. unfold q. cbn [fst snd]. field. apply inj_nz; auto. Qed.

Definition flog2 (n d : Z) : Z :=
  let l0 := (Z.log2 n - Z.log2 d)%Z in if frac_le (scale 2 (1, 1)%Z l0) (n, d) then l0 else (l0 - 1)%Z.
Lemma flog2_ok : forall n d, (0 < n)%Z -> (0 < d)%Z -> 2 ^ (flog2 n d) <= q (n, d) /\ q (n, d) < 2 ^ (flog2 n d + 1).
Proof.
  intros n d Hn Hd. unfold flog2. set (l0 := (Z.log2 n - Z.log2 d)%Z).
  pose proof (Z.log2_spec n Hn) as [N1 N2]. pose proof (Z.log2_spec d Hd) as [D1 D2]. unfold Z.succ in *.
  apply inj_le' in N1, D1. apply inj_lt' in N2, D2.
  pose proof (Z.log2_nonneg n). pose proof (Z.log2_nonneg d).
  rewrite p2_Z in N1, D1, N2, D2 by lia.
  pose proof (q_mul n d Hd) as QM. pose proof (inj_pos d Hd) as Pd.
  set (v := q (n, d)) in *. set (dd := inject_Z d) in *. set (nn := inject_Z n) in *.
  assert (A : 2 ^ (l0 - 1) < v).
  { apply (Qmult_lt_r _ _ dd Pd). rewrite QM. eapply Qlt_le_trans; [|exact N1].
    assert (X : 2 ^ (l0 - 1) * dd < 2 ^ (l0 - 1) * 2 ^ (Z.log2 d + 1)) by (apply Qmult_lt_l; auto; apply p2_pos).
    rewrite <- p2_plus in X. eapply Qlt_le_trans; [exact X|]. apply p2_le. unfold l0. lia. }
  assert (B : v < 2 ^ (l0 + 1)).
  { apply (Qmult_lt_r _ _ dd Pd). rewrite QM. eapply Qlt_le_trans; [exact N2|].
    assert (X : 2 ^ (l0 + 1) * 2 ^ (Z.log2 d) <= 2 ^ (l0 + 1) * dd) by (apply Qmult_le_l; auto; apply p2_pos).
    rewrite <- p2_plus in X. eapply Qle_trans; [|exact X]. apply p2_le. unfold l0. lia. }
  destruct (frac_le (scale 2 (1, 1)%Z l0) (n, d)) eqn:E.
  - apply frac_le_q in E; [|apply scale_snd; cbn; lia | exact Hd]. rewrite q_pow2 in E. auto.
  - apply frac_lt_q in E; [|apply scale_snd; cbn; lia | exact Hd]. rewrite q_pow2 in E. fold v in E.
    replace (l0 - 1 + 1)%Z with l0 by lia. split; [lra | auto].
Qed.

(** The mantissa and exponent, before the range check *)
Definition core (n d : Z) : Z * Z :=
  let e := Z.max (-1074) (flog2 n d - 52) in
  let '(n', d') := scale 2 (n, d) (- e) in
  let k := round_even n' d' in
  if (k =? 2 ^ 53)%Z then (2 ^ 52, e + 1)%Z else (k, e).
Lemma to_double_core : forall neg n d, (0 < n)%Z ->
  to_double neg n d = match fst (core n d) with
                      | Zpos m => if (971 <? snd (core n d))%Z then S754_infinity neg else S754_finite neg m (snd (core n d))
                      | _ => S754_zero neg end.
Proof.
  intros neg n d Hn. unfold to_double, core. destruct (Z.eqb_spec n 0) as [E|_]; [lia|]. unfold flog2. cbv zeta.
  destruct (scale 2 (n, d) _) as [n' d']. destruct (round_even n' d' =? 2 ^ 53)%Z; reflexivity.
Qed.

Section Core.
Variables n d : Z.
Hypothesis Hn : (0 < n)%Z.
Hypothesis Hd : (0 < d)%Z.
Let v := q (n, d).
Let l := flog2 n d.
Let e0 := Z.max (-1074) (l - 52).
Lemma core_ok : forall K e, core n d = (K, e) ->
  exists K0 : Z, inject_Z K * 2 ^ e == inject_Z K0 * 2 ^ e0 /\
    ((2 ^ 52 <= K < 2 ^ 53 /\ -1074 <= e) \/ (0 <= K < 2 ^ 52 /\ e = -1074))%Z /\
    Qabs (v - inject_Z K0 * 2 ^ e0) <= (1 # 2) * 2 ^ e0 /\
    (forall z, Qabs (v - inject_Z K0 * 2 ^ e0) <= Qabs (v - inject_Z z * 2 ^ e0)) /\
    (forall z, K0 <> z -> Qabs (v - inject_Z K0 * 2 ^ e0) == Qabs (v - inject_Z z * 2 ^ e0) -> Z.even K = true) /\
    (e = e0 /\ K = K0 \/ e = e0 + 1 /\ K0 = 2 ^ 53 /\ K = 2 ^ 52)%Z /\
    (0 <= K0 <= 2 ^ 53)%Z /\ (e0 > -1074 -> 2 ^ 52 <= K0)%Z /\
    (forall z, Qabs (v - inject_Z z * 2 ^ e0) < (1 # 2) * 2 ^ e0 -> K0 = z).
Proof.
  intros K e E. pose proof (flog2_ok n d Hn Hd) as [L1 L2]. fold v l in L1, L2.
  unfold core in E. fold l in E. fold e0 in E.
  pose proof (scale_snd 2 (n, d) (- e0) ltac:(lia) Hd) as Sp.
  pose proof (q_scale 2 (n, d) (- e0) ltac:(lia) Hd) as Sq. fold v in Sq. change (inject_Z 2) with 2 in Sq.
  destruct (scale 2 (n, d) (- e0)) as [n' d']. cbn [snd] in Sp.
  assert (Up := p2_pos e0).
  assert (V : v == q (n', d') * 2 ^ e0).
  { rewrite Sq, <- Qmult_assoc, <- p2_plus. replace (- e0 + e0)%Z with 0%Z by lia. change (2 ^ 0) with 1. ring. }
  destruct (grid n' d' _ _ Sp Up V) as (G1 & G2 & G3).
  set (K0 := round_even n' d') in *.
  assert (VP : 0 < v) by (apply (q_pos (n, d)); split; auto).
  (* bounds on the quotient *)
  assert (QU : q (n', d') < inject_Z (2 ^ 53)).
  { rewrite p2_Z by lia. apply (Qmult_lt_r _ _ (2 ^ e0) Up). rewrite <- V, <- p2_plus.
    eapply Qlt_le_trans; [exact L2|]. apply p2_le. unfold e0. lia. }
  assert (Q0 : 0 < q (n', d')). { apply (Qmult_lt_r _ _ (2 ^ e0) Up). rewrite <- V, Qmult_0_l. exact VP. }
  assert (QL : (e0 > -1074)%Z -> inject_Z (2 ^ 52) <= q (n', d')).
  { intros He. rewrite p2_Z by lia. apply (Qmult_le_r _ _ (2 ^ e0) Up). rewrite <- V, <- p2_plus.
    eapply Qle_trans; [|exact L1]. apply p2_le. unfold e0 in *. lia. }
  pose proof (round_near n' d' Sp) as R. fold K0 in R. apply Qabs_Qle_condition in R.
  assert (K1 : (0 <= K0 <= 2 ^ 53)%Z).
  { assert (X : inject_Z (-1) < inject_Z K0 /\ inject_Z K0 < inject_Z (2 ^ 53 + 1)).
    { rewrite inject_Z_plus. change (inject_Z (-1)) with (-1). change (inject_Z 1) with 1. lra. }
    destruct X as [X1 X2]. apply inj_lt_inv in X1, X2. lia. }
  assert (K2 : (e0 > -1074 -> 2 ^ 52 <= K0)%Z).
  { intros He. specialize (QL He). assert (X : inject_Z (2 ^ 52 + -1) < inject_Z K0).
    { rewrite inject_Z_plus. change (inject_Z (-1)) with (-1). lra. }
    apply inj_lt_inv in X. lia. }
  exists K0.
  assert (UN : forall z, Qabs (v - inject_Z z * 2 ^ e0) < (1 # 2) * 2 ^ e0 -> K0 = z).
  { intros z Hz. apply round_unique; auto. rewrite V in Hz.
    assert (X : Qabs (q (n', d') - inject_Z z) * 2 ^ e0 < (1 # 2) * 2 ^ e0).
    { rewrite <- abs_scale by auto. setoid_replace ((q (n', d') - inject_Z z) * 2 ^ e0) with (q (n', d') * 2 ^ e0 - inject_Z z * 2 ^ e0) by ring. exact Hz. }
    exact (proj1 (Qmult_lt_r _ _ (2 ^ e0) Up) X). }
  destruct (Z.eqb_spec K0 (2 ^ 53)) as [T|T]; injection E as <- <-.
  - assert (S : inject_Z (2 ^ 52) * 2 ^ (e0 + 1) == inject_Z K0 * 2 ^ e0).
    { rewrite T, !p2_Z by lia. rewrite <- !p2_plus. replace (52 + (e0 + 1))%Z with (53 + e0)%Z by lia. reflexivity. }
    repeat (split; [auto|]); auto. left. unfold e0. lia.
  - split; [reflexivity|]. split.
    { destruct (Z.lt_ge_cases K0 (2 ^ 52)); [right; unfold e0 in *; lia | left; unfold e0; lia]. }
    repeat (split; [auto|]); auto.
Qed.
End Core.

Lemma value_pos : forall s m e, value (S754_finite s m e) = Some (if s then - (inject_Z (Zpos m) * 2 ^ e) else inject_Z (Zpos m) * 2 ^ e) \/
  exists w, value (S754_finite s m e) = Some w /\ w == (if s then - (inject_Z (Zpos m) * 2 ^ e) else inject_Z (Zpos m) * 2 ^ e).
Proof.
  intros s m e. right. cbn [value]. destruct s; [|eexists; split; [reflexivity|reflexivity]].
  eexists. split; [reflexivity|]. change (Zneg m) with (- Zpos m)%Z. rewrite inject_Z_opp. ring.
Qed.
Lemma max_finite_is : max_finite == (inject_Z (2 ^ 54 - 1)) * 2 ^ 970.
Proof. unfold max_finite. rewrite <- p2_Z by lia. rewrite <- inject_Z_mult. reflexivity. Qed.

Lemma to_double_pos : forall n d, (0 < n)%Z -> (0 < d)%Z ->
  (q (n, d) < max_finite -> nearest (to_double false n d) (q (n, d))) /\
  (max_finite <= q (n, d) -> to_double false n d = S754_infinity false).
Proof.
  intros n d Hn Hd. set (v := q (n, d)). rewrite to_double_core by auto.
  destruct (core n d) as [K e] eqn:EC. cbn [fst snd].
  destruct (core_ok n d Hn Hd K e EC) as (K0 & S & M & G1 & G2 & G3 & F & B & BL & UN). fold v in G1, G2, G3, UN.
  set (e0 := Z.max (-1074) (flog2 n d - 52)) in *.
  pose proof (flog2_ok n d Hn Hd) as [L1 L2]. fold v in L1, L2.
  assert (VP : 0 < v) by (apply (q_pos (n, d)); split; auto).
  assert (U0 := p2_pos e0).
  (* the range check *)
  assert (RANGE : v < max_finite <-> (e <= 971)%Z).
  { destruct (Z.lt_trichotomy e0 971) as [C|[C|C]].
    - split; intros _; [lia|]. eapply Qlt_trans; [exact L2|]. apply (Qle_lt_trans _ (2 ^ 1023)); [apply p2_le; unfold e0 in C; lia|].
      rewrite <- p2_Z by lia. apply inj_lt'. reflexivity.
    - assert (MX : max_finite == (inject_Z (2 ^ 53) - (1 # 2)) * 2 ^ e0).
      { rewrite C, max_finite_is. replace 971%Z with (1 + 970)%Z by lia. rewrite p2_plus. change (2 ^ 1) with 2.
        replace (2 ^ 54 - 1)%Z with (2 * 2 ^ 53 + -1)%Z by reflexivity. rewrite inject_Z_plus, inject_Z_mult. change (inject_Z 2) with 2. change (inject_Z (-1)) with (-1). ring. }
      split; intros H.
      + destruct F as [[-> _]|(_ & T & _)]; [lia|]. exfalso.
        rewrite T in *. apply Qabs_Qle_condition in G1. rewrite MX in H. lra.
      + destruct F as [[_ T]|(X & _)]; [|lia].
        apply Qnot_le_lt. intros H'. rewrite MX in H'.
        assert (K53 : (K0 < 2 ^ 53)%Z) by (rewrite <- T; destruct M as [M|M]; lia).
        assert (L53 : v < 2 ^ 1024) by (eapply Qlt_le_trans; [exact L2|]; apply p2_le; unfold e0 in C; lia).
        assert (L53' : v < inject_Z (2 ^ 53) * 2 ^ e0).
        { rewrite p2_Z by lia. rewrite <- p2_plus. rewrite C. exact L53. }
        assert (KE : inject_Z K0 <= inject_Z (2 ^ 53 + -1)) by (apply inj_le'; lia).
        rewrite inject_Z_plus in KE. change (inject_Z (-1)) with (-1) in KE.
        assert (KU : inject_Z K0 * 2 ^ e0 <= (inject_Z (2 ^ 53) + -1) * 2 ^ e0) by (apply Qmult_le_compat_r; lra).
        apply Qabs_Qle_condition in G1.
        assert (EQ : v == (inject_Z (2 ^ 53) - (1 # 2)) * 2 ^ e0).
        { apply Qle_antisym; [|lra]. lra. }
        assert (KQ : inject_Z K0 * 2 ^ e0 == (inject_Z (2 ^ 53) + -1) * 2 ^ e0) by (apply Qle_antisym; [auto|lra]).
        assert (KZ : K0 = (2 ^ 53 - 1)%Z).
        { assert (X : inject_Z K0 == inject_Z (2 ^ 53 - 1)).
          { apply (Qmult_inj_r _ _ (2 ^ e0)); [intros Z0; lra|]. rewrite KQ. reflexivity. }
          apply (proj1 (inject_Z_injective _ _)) in X. exact X. }
        assert (EV : Z.even K = true).
        { apply (G3 (2 ^ 53)%Z); [lia|]. rewrite Qabs_pos by lra. rewrite Qabs_neg by lra. lra. }
        rewrite T, KZ in EV. discriminate.
    - split; intros H; [exfalso|lia].
      assert (X : 2 ^ 1024 <= v) by (eapply Qle_trans; [|exact L1]; apply p2_le; unfold e0 in C; lia).
      assert (Y : max_finite < 2 ^ 1024) by (rewrite <- p2_Z by lia; apply inj_lt'; reflexivity). lra. }
  split; intros HV.
  - assert (He : (e <= 971)%Z) by (apply RANGE; auto).
    set (x := match K with Zpos m => if (971 <? e)%Z then S754_infinity false else S754_finite false m e | _ => S754_zero false end).
    assert (VX : exists qx, value x = Some qx /\ qx == inject_Z K0 * 2 ^ e0 /\ double x /\ (Z.even K = true -> even_mant x)).
    { unfold x. destruct K as [|m|m]; [| |exfalso; destruct M as [M|M]; lia].
      - exists 0. cbn [value double even_mant]. split; [reflexivity|]. split; [|auto]. rewrite <- S. change (inject_Z 0) with 0. ring.
      - destruct (Z.ltb_spec 971 e) as [X|_]; [lia|]. eexists. cbn [value double even_mant]. split; [reflexivity|]. split; [exact S|].
        split; [|auto]. unfold mant. destruct M as [M|M]; [left|right]; lia. }
    destruct VX as (qx & V1 & V2 & V3 & V4). exists qx. split; [exact V1|]. split; [exact V3|].
    assert (AB : forall y, Qabs (qx - v) <= Qabs (y - v) <-> Qabs (v - inject_Z K0 * 2 ^ e0) <= Qabs (v - y)).
    { intros y. rewrite (Qabs_Qminus qx v), (Qabs_Qminus y v), V2. tauto. }
    assert (AE : forall y, Qabs (qx - v) == Qabs (y - v) <-> Qabs (v - inject_Z K0 * 2 ^ e0) == Qabs (v - y)).
    { intros y. rewrite (Qabs_Qminus qx v), (Qabs_Qminus y v), V2. tauto. }
    (* every double is a multiple of the unit, or strictly further away *)
    assert (CL : forall y w, double y -> value y = Some w ->
      (exists z, w == inject_Z z * 2 ^ e0) \/ (Qabs (v - inject_Z K0 * 2 ^ e0) < Qabs (v - w))).
    { intros y w Dy Vy.
      assert (NG : w < 0 -> Qabs (v - inject_Z K0 * 2 ^ e0) < Qabs (v - w)).
      { intros W. eapply Qle_lt_trans; [apply (G2 0%Z)|]. change (inject_Z 0) with 0. rewrite Qabs_pos by lra. rewrite Qabs_pos by lra. lra. }
      destruct y as [s|s| |s m' e']; cbn [value] in Vy; try discriminate.
      - injection Vy as <-. left. exists 0%Z. change (inject_Z 0) with 0. ring.
      - injection Vy as <-. destruct s.
        + right. apply NG. change (Zneg m') with (- Zpos m')%Z. rewrite inject_Z_opp.
          pose proof (Qmult_lt_0_compat _ _ (inj_pos (Zpos m') ltac:(lia)) (p2_pos e')). lra.
        + destruct (Z.le_gt_cases e0 e') as [C|C].
          * left. exists (Zpos m' * 2 ^ (e' - e0))%Z. rewrite inject_Z_mult, p2_Z by lia. rewrite <- Qmult_assoc, <- p2_plus.
            replace (e' - e0 + e0)%Z with e' by lia. reflexivity.
          * right. cbn [double] in Dy. assert (Dy' : (Zpos m' < 2 ^ 53 /\ -1074 <= e')%Z) by (destruct Dy as [D1|D1]; lia).
            assert (W : inject_Z (Zpos m') * 2 ^ e' < 2 ^ (flog2 n d)).
            { assert (W1 : inject_Z (Zpos m') * 2 ^ e' < inject_Z (2 ^ 53) * 2 ^ e') by (apply Qmult_lt_compat_r; [apply p2_pos | apply inj_lt'; lia]).
              rewrite p2_Z, <- p2_plus in W1 by lia. eapply Qlt_le_trans; [exact W1|]. apply p2_le. unfold e0 in C. lia. }
            eapply Qle_lt_trans; [apply (G2 (2 ^ 52)%Z)|].
            rewrite p2_Z, <- p2_plus by lia. replace (52 + e0)%Z with (flog2 n d) by (unfold e0 in *; lia).
            rewrite Qabs_pos by lra. rewrite Qabs_pos by lra. lra. }
    split.
    + intros y w Dy Vy. apply AB. destruct (CL y w Dy Vy) as [(z & Z1)|Z1]; [rewrite Z1; apply G2 | lra].
    + intros y w Dy Vy NE EQ. apply AE in EQ. destruct (CL y w Dy Vy) as [(z & Z1)|Z1]; [|exfalso; lra].
      apply V4. apply (G3 z).
      * intros ->. apply NE. rewrite Z1, V2. reflexivity.
      * rewrite EQ, Z1. reflexivity.
  - assert (He : (971 < e)%Z). { destruct (Z.lt_ge_cases 971 e); auto. exfalso. assert (e <= 971)%Z by lia. apply RANGE in H0. lra. }
    destruct K as [|m|m]; [exfalso; destruct M as [M|M]; lia | | exfalso; destruct M as [M|M]; lia].
    destruct (Z.ltb_spec 971 e); [reflexivity|lia].
Qed.

(** A fraction within half a unit of a double is read as that double *)
Lemma p2_lt_inv : forall a b, 2 ^ a < 2 ^ b -> (a < b)%Z.
Proof. intros. apply (pw_lt_inv 2); [lia|auto]. Qed.
Lemma to_double_near : forall neg n d m e, (0 < n)%Z -> (0 < d)%Z -> mant m e ->
  Qabs (q (n, d) - inject_Z (Zpos m) * 2 ^ e) < (1 # 2) * 2 ^ e ->
  ((Zpos m = 2 ^ 52)%Z -> (e > -1074)%Z -> inject_Z (Zpos m) * 2 ^ e - q (n, d) < (1 # 4) * 2 ^ e) ->
  to_double neg n d = S754_finite neg m e.
Proof.
  intros neg n d m e Hn Hd M H HL. set (v := q (n, d)) in *. rewrite to_double_core by auto.
  pose proof (flog2_ok n d Hn Hd) as [L1 L2]. fold v in L1, L2. set (l := flog2 n d) in *.
  assert (VP : 0 < v) by (apply (q_pos (n, d)); split; auto).
  assert (U := p2_pos e). apply Qabs_Qlt_condition in H.
  assert (R : exists e0 K0, e0 = Z.max (-1074) (l - 52) /\ Qabs (v - inject_Z K0 * 2 ^ e0) < (1 # 2) * 2 ^ e0 /\
    (K0 = Zpos m /\ e0 = e \/ K0 = 2 ^ 53 /\ Zpos m = 2 ^ 52 /\ e = e0 + 1)%Z).
  { assert (MU : (Zpos m < 2 ^ 53)%Z) by (destruct M; lia).
    assert (LU : (l < e + 53)%Z).
    { apply p2_lt_inv. eapply Qle_lt_trans; [exact L1|].
      assert (X : inject_Z (Zpos m) <= inject_Z (2 ^ 53 + -1)) by (apply inj_le'; lia).
      rewrite inject_Z_plus in X. change (inject_Z (-1)) with (-1) in X.
      assert (Y : inject_Z (Zpos m) * 2 ^ e <= (inject_Z (2 ^ 53) + -1) * 2 ^ e) by (apply Qmult_le_compat_r; lra).
      replace (e + 53)%Z with (53 + e)%Z by lia. rewrite p2_plus, <- p2_Z by lia. lra. }
    assert (SAME : Z.max (-1074) (l - 52) = e -> exists e0 K0, e0 = Z.max (-1074) (l - 52) /\ Qabs (v - inject_Z K0 * 2 ^ e0) < (1 # 2) * 2 ^ e0 /\
      (K0 = Zpos m /\ e0 = e \/ K0 = 2 ^ 53 /\ Zpos m = 2 ^ 52 /\ e = e0 + 1)%Z).
    { intros E. exists e, (Zpos m). split; [auto|]. split; [apply Qabs_Qlt_condition; exact H | auto]. }
    destruct M as [[M1 M2]|[M1 M2]].
    - destruct (Qlt_le_dec v (2 ^ (e + 52))) as [C|C].
      + assert (M52 : Zpos m = (2 ^ 52)%Z).
        { destruct (Z.eq_dec (Zpos m) (2 ^ 52)) as [|N]; auto. exfalso.
          assert (X : inject_Z (2 ^ 52 + 1) <= inject_Z (Zpos m)) by (apply inj_le'; lia).
          rewrite inject_Z_plus in X. change (inject_Z 1) with 1 in X.
          assert (Y : (inject_Z (2 ^ 52) + 1) * 2 ^ e <= inject_Z (Zpos m) * 2 ^ e) by (apply Qmult_le_compat_r; lra).
          replace (e + 52)%Z with (52 + e)%Z in C by lia. rewrite p2_plus, <- p2_Z in C by lia. lra. }
        destruct (Z.eq_dec e (-1074)) as [E|E].
        * apply SAME. subst e. assert (l < -1074 + 52)%Z; [|lia]. apply p2_lt_inv. lra.
        * assert (HL' := HL M52 ltac:(lia)). rewrite M52 in *.
          assert (LL : (e + 51 <= l)%Z).
          { assert (e + 51 < l + 1)%Z; [|lia]. apply p2_lt_inv. eapply Qle_lt_trans; [|exact L2].
            replace (e + 51)%Z with (51 + e)%Z by lia. rewrite p2_plus.
            assert (X : inject_Z (2 ^ 52) == 2 ^ 51 + inject_Z (2 ^ 51)) by reflexivity. rewrite X in HL'.
            assert (Y : 1 <= inject_Z (2 ^ 51)) by (apply (inj_le' 1); lia).
            assert (Z1 : 1 * 2 ^ e <= inject_Z (2 ^ 51) * 2 ^ e) by (apply Qmult_le_compat_r; lra). lra. }
          assert (LH : (l < e + 52)%Z) by (apply p2_lt_inv; lra).
          exists (e - 1)%Z, (2 ^ 53)%Z. split; [lia|]. split.
          -- assert (X : 2 ^ e == 2 ^ (e - 1) * 2) by (replace e with (e - 1 + 1)%Z at 1 by lia; rewrite p2_plus; reflexivity).
             rewrite X in HL', H. assert (D : inject_Z (2 ^ 53) == inject_Z (2 ^ 52) * 2) by reflexivity. rewrite D.
             replace (e + 52)%Z with (52 + e)%Z in C by lia. rewrite p2_plus, <- p2_Z, X in C by lia.
             apply Qabs_Qlt_condition. lra.
          -- right. split; [auto|]. split; [auto|lia].
      + apply SAME. assert (e + 52 < l + 1)%Z; [|lia]. apply p2_lt_inv. lra.
    - apply SAME. subst e.
      assert (X : inject_Z (Zpos m) <= inject_Z (2 ^ 52 + -1)) by (apply inj_le'; lia).
      rewrite inject_Z_plus in X. change (inject_Z (-1)) with (-1) in X.
      assert (Y : inject_Z (Zpos m) * 2 ^ (-1074) <= (inject_Z (2 ^ 52) + -1) * 2 ^ (-1074)) by (apply Qmult_le_compat_r; lra).
      assert (l < 52 + -1074)%Z; [|lia]. apply p2_lt_inv. rewrite p2_plus, <- (p2_Z 52) by lia. lra. }
  destruct R as (e0 & K0 & E0 & RN & RC).
  destruct (core n d) as [K e'] eqn:EC. cbn [fst snd].
  destruct (core_ok n d Hn Hd K e' EC) as (K0' & _ & _ & _ & _ & _ & F & _ & _ & UN). fold v l in UN. fold l in F. rewrite <- E0 in *.
  specialize (UN K0 RN). subst K0'.
  assert (FF : K = Zpos m /\ e' = e).
  { destruct F as [[F1 F2]|(F1 & F2 & F3)], RC as [[R1 R2]|(R1 & R2 & R3)]; destruct M as [M|M]; subst; try lia.
    exfalso. assert (W := EC). unfold core in W. destruct (scale 2 (n, d) _) as [n' d'].
    destruct (Z.eqb_spec (round_even n' d') (2 ^ 53)); injection W; intros; lia. }
  destruct FF as [-> ->]. destruct (Z.ltb_spec 971 e) as [C|_]; [destruct M; lia|reflexivity].
Qed.
Lemma to_double_sign : forall n d, to_double true n d = match to_double false n d with
  | S754_zero _ => S754_zero true | S754_infinity _ => S754_infinity true | S754_nan => S754_nan | S754_finite _ m e => S754_finite true m e end.
Proof.
  intros n d. unfold to_double. destruct (n =? 0)%Z; [reflexivity|]. cbv zeta. destruct (scale 2 (n, d) _) as [n' d'].
  destruct (round_even n' d' =? 2 ^ 53)%Z; (match goal with |- context [match ?k with Z0 => _ | _ => _ end] => destruct k end); auto;
    match goal with |- context [(971 <? ?k)%Z] => destruct (971 <? k)%Z end; auto.
Qed.
Definition neg_num (x : num) : num :=
  match x with S754_zero s => S754_zero (negb s) | S754_infinity s => S754_infinity (negb s) | S754_nan => S754_nan
             | S754_finite s m e => S754_finite (negb s) m e end.
Lemma value_neg : forall x w, value x = Some w -> exists w', value (neg_num x) = Some w' /\ w' == - w.
Proof.
  intros [s|s| |s m e] w H; cbn [value neg_num] in *; try discriminate; injection H as <-.
  - exists 0. split; auto. ring.
  - eexists. split; [reflexivity|]. destruct s; cbn [negb]; [change (Zneg m) with (- Zpos m)%Z | change (Zneg m) with (- Zpos m)%Z]; rewrite inject_Z_opp; ring.
Qed.
Lemma nearest_neg : forall x v, nearest x v -> nearest (neg_num x) (- v).
Proof.
  intros x v (w & V & D & N & T). destruct (value_neg x w V) as (w' & V' & E). exists w'. split; [auto|].
  split; [destruct x; auto|].
  assert (A : forall y, Qabs (y - - v) == Qabs (- y - v)) by (intros y; rewrite <- Qabs_opp; setoid_replace (- (y - - v)) with (- y - v) by ring; reflexivity).
  assert (B : forall y z, value y = Some z -> exists z', value (neg_num y) = Some z' /\ z' == - z /\ (double y -> double (neg_num y))).
  { intros y z Hy. destruct (value_neg y z Hy) as (z' & ? & ?). exists z'. split; [|split]; auto. destruct y; auto. }
  assert (W : Qabs (w' - - v) == Qabs (w - v)) by (rewrite A, E; setoid_replace (- - w - v) with (w - v) by ring; reflexivity).
  split.
  - intros y z Dy Vy. destruct (B y z Vy) as (z' & B1 & B2 & B3). rewrite W, A, <- B2. apply (N (neg_num y)); auto.
  - intros y z Dy Vy NE EQ. destruct (B y z Vy) as (z' & B1 & B2 & B3). rewrite W, A, <- B2 in EQ.
    assert (X : even_mant x) by (apply (T (neg_num y) z'); auto; intros Y; apply NE; rewrite B2 in Y; rewrite E, <- Y; ring).
    destruct x; auto.
Qed.
Lemma nearest_zero : forall neg, nearest (S754_zero neg) 0.
Proof.
  intros neg. exists 0. split; [reflexivity|]. split; [exact I|]. split; [intros; change (Qabs (0 - 0)) with 0; apply Qabs_nonneg | intros; exact I].
Qed.
Lemma nearest_proper : forall x v v', v == v' -> nearest x v -> nearest x v'.
Proof.
  intros x v v' E (w & V & D & N & T). exists w. split; [auto|]. split; [auto|]. split.
  - intros y z Dy Vy. rewrite <- E. eauto.
  - intros y z Dy Vy NE EQ. rewrite <- E in EQ. eauto.
Qed.
Lemma to_double_ok : forall neg n d, (0 <= n)%Z -> (0 < d)%Z -> 
  (q (n, d) < max_finite -> nearest (to_double neg n d) (if neg : bool then - q (n, d) else q (n, d))) /\
  (max_finite <= q (n, d) -> to_double neg n d = S754_infinity neg).
Proof.
  intros neg n d Hn Hd. destruct (Z.eq_dec n 0) as [->|N0].
  - assert (Z0 : q (0, d)%Z == 0) by (apply q_cross; cbn [fst snd]; [auto | change (inject_Z 0) with 0; ring]).
    change (to_double neg 0 d) with (S754_zero neg). split; intros H.
    + destruct neg; (eapply nearest_proper; [|apply nearest_zero]); rewrite Z0; reflexivity.
    + exfalso. rewrite Z0 in H. revert H. apply Qlt_not_le. reflexivity.
  - destruct (to_double_pos n d ltac:(lia) Hd) as [A B]. destruct neg; [|auto]. rewrite to_double_sign. split; intros H.
    + specialize (A H). apply nearest_neg in A. destruct (to_double false n d) as [s|s| |s m e] eqn:E.
      * apply nearest_proper with (v := - q (n, d)); [reflexivity|]. destruct A as (w & A). exists w. exact A.
      * destruct A as (w & A & _). discriminate.
      * destruct A as (w & A & _). discriminate.
      * cbn [neg_num] in A. destruct s; [|exact A]. exfalso. revert E. unfold to_double. destruct (n =? 0)%Z; [discriminate|]. cbv zeta.
        destruct (scale 2 (n, d) _) as [n' d']. destruct (round_even n' d' =? 2 ^ 53)%Z; (match goal with |- context [match ?k with Z0 => _ | _ => _ end] => destruct k end); try discriminate;
        match goal with |- context [(971 <? ?k)%Z] => destruct (971 <? k)%Z end; discriminate.
    + rewrite (B H). reflexivity.
Qed.
