From Coq Require Import ZArith QArith Qpower Qabs Qround List Lia Lqa Bool SpecFloat.
From Verif Require Import UtfModel Bits NumModel NumSpec.
Import ListNotations.
Local Open Scope Q_scope.

(** * Powers *)
Lemma inj_pos : forall b : Z, (0 < b)%Z -> 0 < inject_Z b.
Proof. intros b H. replace 0 with (inject_Z 0) by reflexivity. rewrite <- Zlt_Qlt. exact H. Qed.
Lemma inj_nz : forall b : Z, (0 < b)%Z -> ~ inject_Z b == 0.
Proof. intros b H E. apply inj_pos in H. rewrite E in H. apply (Qlt_irrefl 0 H). Qed.
Lemma pw_pos : forall (b k : Z), (0 < b)%Z -> 0 < inject_Z b ^ k.
Proof. intros b k H. apply Qpower_0_lt, inj_pos, H. Qed.
Lemma pw_nz : forall b k, (0 < b)%Z -> ~ inject_Z b ^ k == 0.
Proof. intros b k H E. pose proof (pw_pos b k H) as P. rewrite E in P. apply (Qlt_irrefl 0 P). Qed.
Lemma pw_plus : forall b n m, (0 < b)%Z -> inject_Z b ^ (n + m) == inject_Z b ^ n * inject_Z b ^ m.
Proof. intros. apply Qpower_plus. apply inj_nz; auto. Qed.
Lemma pw_Z : forall b n, (0 <= n)%Z -> inject_Z b ^ n == inject_Z (b ^ n).
Proof. intros. symmetry. apply Zpower_Qpower. auto. Qed.
Lemma pw_lt : forall b n m, (1 < b)%Z -> (n < m)%Z -> inject_Z b ^ n < inject_Z b ^ m.
Proof. intros. apply Qpower_lt_compat_l; auto. replace 1 with (inject_Z 1) by reflexivity. rewrite <- Zlt_Qlt. auto. Qed.
Lemma pw_le : forall b n m, (1 < b)%Z -> (n <= m)%Z -> inject_Z b ^ n <= inject_Z b ^ m.
Proof. intros. apply Qpower_le_compat_l; auto. replace 1 with (inject_Z 1) by reflexivity. rewrite <- Zle_Qle. lia. Qed.
Lemma pw_lt_inv : forall b n m, (1 < b)%Z -> inject_Z b ^ n < inject_Z b ^ m -> (n < m)%Z.
Proof. intros b n m H L. destruct (Z.lt_ge_cases n m) as [|G]; auto. apply (pw_le b) in G; auto. exfalso. lra. Qed.
Lemma inj_le : forall a b : Z, (a <= b)%Z <-> inject_Z a <= inject_Z b.
Proof. intros. rewrite Zle_Qle. tauto. Qed.
Lemma inj_lt : forall a b : Z, (a < b)%Z <-> inject_Z a < inject_Z b.
Proof. intros. rewrite Zlt_Qlt. tauto. Qed.
Lemma pw_0 : forall b, inject_Z b ^ 0 == 1.
Proof. reflexivity. Qed.
Lemma pw_1 : forall b, inject_Z b ^ 1 == inject_Z b.
Proof. reflexivity. Qed.
Lemma pw_opp : forall b n, (0 < b)%Z -> inject_Z b ^ (- n) * inject_Z b ^ n == 1.
Proof. intros b n H. rewrite <- pw_plus by auto. replace (- n + n)%Z with 0%Z by lia. reflexivity. Qed.

(** * Fractions *)
Definition q (nd : Z * Z) : Q := inject_Z (fst nd) / inject_Z (snd nd).
Definition pos (nd : Z * Z) : Prop := (0 < fst nd /\ 0 < snd nd)%Z.
Lemma q_cross : forall nd v, (0 < snd nd)%Z -> inject_Z (fst nd) == v * inject_Z (snd nd) -> q nd == v.
Proof. intros [n d] v H E. unfold q. cbn [fst snd] in *. rewrite E. field. apply inj_nz; auto. Qed.
Lemma q_pos : forall nd, pos nd -> 0 < q nd.
Proof. intros [n d] [H1 H2]. unfold q. cbn [fst snd] in *. apply Qlt_shift_div_l; [apply inj_pos; auto|]. rewrite Qmult_0_l. apply inj_pos; auto. Qed.
Lemma scale_pos : forall b nd k, (0 < b)%Z -> pos nd -> pos (scale b nd k).
Proof.
  intros b [n d] k Hb [H1 H2]. unfold scale, pos in *. cbn [fst snd] in *.
  destruct (Z.leb_spec 0 k); cbn [fst snd]; (split; [|]); auto; apply Z.mul_pos_pos; auto; apply Z.pow_pos_nonneg; lia.
Qed.
Lemma scale_snd : forall b nd k, (0 < b)%Z -> (0 < snd nd)%Z -> (0 < snd (scale b nd k))%Z.
Proof.
  intros b [n d] k Hb H2. unfold scale in *. cbn [fst snd] in *.
  destruct (Z.leb_spec 0 k); cbn [fst snd]; auto. apply Z.mul_pos_pos; auto. apply Z.pow_pos_nonneg; lia.
Qed.
Lemma scale_fst : forall b nd k, (0 < b)%Z -> (0 <= fst nd)%Z -> (0 <= fst (scale b nd k))%Z.
Proof.
  intros b [n d] k Hb H2. unfold scale in *. cbn [fst snd] in *.
  destruct (Z.leb_spec 0 k); cbn [fst snd]; auto. apply Z.mul_nonneg_nonneg; auto. apply Z.pow_nonneg; lia.
Qed.
Lemma q_scale : forall b nd k, (0 < b)%Z -> (0 < snd nd)%Z -> q (scale b nd k) == q nd * inject_Z b ^ k.
Proof.
  intros b nd k Hb H2. apply q_cross; [apply scale_snd; auto|]. destruct nd as [n d]. unfold q, scale. cbn [fst snd] in *.
  destruct (Z.leb_spec 0 k); cbn [fst snd].
  - rewrite inject_Z_mult, <- pw_Z by lia. field. apply inj_nz; auto.
  - rewrite inject_Z_mult, <- pw_Z by lia.
    assert (E := pw_opp b k Hb). rewrite <- (Qmult_1_r (inject_Z n)) at 1. rewrite <- E. field. apply inj_nz; auto.
Qed.
Lemma frac_le_q : forall a b, (0 < snd a)%Z -> (0 < snd b)%Z -> frac_le a b = true <-> q a <= q b.
Proof.
  intros [a b] [c d] H1 H2. unfold frac_le, q. cbn [fst snd] in *. rewrite Z.leb_le, inj_le, !inject_Z_mult.
  pose proof (inj_pos b H1) as P1. pose proof (inj_pos d H2) as P2. split; intros H.
  - apply Qle_shift_div_l; auto. apply (Qle_trans _ (inject_Z a * inject_Z d / inject_Z b)); [|apply Qle_shift_div_r; auto].
    apply Qle_lteq. right. field. apply inj_nz; auto.
  - assert (E1 : inject_Z a == inject_Z a / inject_Z b * inject_Z b) by (field; apply inj_nz; auto).
    assert (E2 : inject_Z c == inject_Z c / inject_Z d * inject_Z d) by (field; apply inj_nz; auto).
    rewrite E1, E2. set (x := inject_Z a / inject_Z b) in *. set (y := inject_Z c / inject_Z d) in *.
    setoid_replace (x * inject_Z b * inject_Z d) with (x * (inject_Z b * inject_Z d)) by ring.
    setoid_replace (y * inject_Z d * inject_Z b) with (y * (inject_Z b * inject_Z d)) by ring.
    apply Qmult_le_compat_r; auto. apply Qlt_le_weak. apply Qmult_lt_0_compat; auto.
Qed.
Lemma frac_lt_q : forall a b, (0 < snd a)%Z -> (0 < snd b)%Z -> frac_le a b = false <-> q b < q a.
Proof.
  intros a b H1 H2. pose proof (frac_le_q a b H1 H2) as E. destruct (frac_le a b).
  - split; [discriminate|]. intros H. assert (q a <= q b) by (apply E; auto). lra.
  - split; auto. intros _. apply Qnot_le_lt. intros H. apply E in H. discriminate.
Qed.

(** * Rounding *)
Lemma round_near : forall n d, (0 < d)%Z -> Qabs (q (n, d) - inject_Z (round_even n d)) <= 1 # 2.
Proof.
  intros n d Hd. pose proof (Z.div_mod n d ltac:(lia)) as E. pose proof (Z.mod_pos_bound n d Hd) as B.
  assert (R : (2 * Z.abs (n - round_even n d * d) <= d)%Z).
  { unfold round_even. set (t := (n / d)%Z) in *. set (r := (n mod d)%Z) in *.
    destruct (Z.ltb_spec (2 * r) d); [|destruct (Z.ltb_spec d (2 * r)); [|destruct (Z.even t)]]; rewrite ?Z.mul_add_distr_r; lia. }
  set (k := round_even n d) in *. clearbody k. clear E B.
  assert (P := inj_pos d Hd). unfold q. cbn [fst snd].
  assert (X : inject_Z n / inject_Z d - inject_Z k == inject_Z (n - k * d) / inject_Z d).
  { unfold Zminus. rewrite inject_Z_plus, inject_Z_opp, inject_Z_mult. field. apply inj_nz; auto. }
  rewrite X. apply Qabs_Qle_condition. 
  assert (A : (- d <= 2 * (n - k * d) <= d)%Z) by lia. destruct A as [A1 A2]. apply inj_le in A1, A2.
  rewrite inject_Z_mult in A1, A2. rewrite inject_Z_opp in A1. change (inject_Z 2) with 2 in *.
  split.
  - apply Qle_shift_div_l; auto. lra.
  - apply Qle_shift_div_r; auto. lra.
Qed.
Lemma round_unique : forall n d z, (0 < d)%Z -> Qabs (q (n, d) - inject_Z z) < 1 # 2 -> round_even n d = z.
Proof.
  intros n d z Hd H. pose proof (round_near n d Hd) as R. set (k := round_even n d) in *. clearbody k.
  apply Qabs_Qle_condition in R. apply Qabs_Qlt_condition in H.
  assert (A : inject_Z (k - z) < inject_Z 1 /\ inject_Z (-1) < inject_Z (k - z)).
  { unfold Zminus. rewrite inject_Z_plus, inject_Z_opp. change (inject_Z 1) with 1. change (inject_Z (-1)) with (-1). lra. }
  destruct A as [A B]. apply inj_lt in A, B. lia.
Qed.
Lemma round_best : forall n d z, (0 < d)%Z -> Qabs (q (n, d) - inject_Z (round_even n d)) <= Qabs (q (n, d) - inject_Z z).
Proof.
  intros n d z Hd. destruct (Z.eq_dec (round_even n d) z) as [->|N]; [apply Qle_refl|].
  pose proof (round_near n d Hd) as R. destruct (Qlt_le_dec (Qabs (q (n, d) - inject_Z z)) (1 # 2)) as [H|H].
  - apply round_unique in H; auto. contradiction.
  - lra.
Qed.
Lemma round_tie : forall n d z, (0 < d)%Z -> round_even n d <> z -> Qabs (q (n, d) - inject_Z (round_even n d)) == Qabs (q (n, d) - inject_Z z) ->
  Z.even (round_even n d) = true.
Proof.
  intros n d z Hd N E. destruct (Z.even (round_even n d)) eqn:EV; [reflexivity|exfalso].
  pose proof (Z.div_mod n d ltac:(lia)) as DM. pose proof (Z.mod_pos_bound n d Hd) as B.
  assert (R : (2 * Z.abs (n - round_even n d * d) < d)%Z).
  { unfold round_even in *. set (t := (n / d)%Z) in *. set (r := (n mod d)%Z) in *.
    destruct (Z.ltb_spec (2 * r) d); [|destruct (Z.ltb_spec d (2 * r)); [|destruct (Z.even t) eqn:E2]].
    - rewrite (Z.mul_comm t d). lia.
    - rewrite Z.mul_add_distr_r, (Z.mul_comm t d). lia.
    - congruence.
    - rewrite Z.even_add, E2 in EV. discriminate. }
  set (k := round_even n d) in *. clearbody k. clear DM B EV.
  assert (P := inj_pos d Hd).
  assert (X : forall w, q (n, d) - inject_Z w == inject_Z (n - w * d) / inject_Z d).
  { intros w. unfold q. cbn [fst snd]. unfold Zminus. rewrite inject_Z_plus, inject_Z_opp, inject_Z_mult. field. apply inj_nz; auto. }
  assert (LT : Qabs (q (n, d) - inject_Z k) < 1 # 2).
  { rewrite X. apply Qabs_Qlt_condition. assert (A : (- d < 2 * (n - k * d) < d)%Z) by lia. destruct A as [A1 A2]. apply inj_lt in A1, A2.
    rewrite inject_Z_mult in A1, A2. rewrite inject_Z_opp in A1. change (inject_Z 2) with 2 in *.
    split; [apply Qlt_shift_div_l | apply Qlt_shift_div_r]; auto; lra. }
  assert (LT2 : Qabs (q (n, d) - inject_Z z) < 1 # 2) by (rewrite <- E; auto).
  apply N. rewrite <- (round_unique n d k), <- (round_unique n d z); auto.
Qed.
(** Multiples of a unit u *)
Lemma abs_scale : forall a u, 0 < u -> Qabs (a * u) == Qabs a * u.
Proof. intros a u H. rewrite Qabs_Qmult, (Qabs_pos u) by lra. reflexivity. Qed.
Lemma grid : forall n d u v, (0 < d)%Z -> 0 < u -> v == q (n, d) * u ->
  Qabs (v - inject_Z (round_even n d) * u) <= (1 # 2) * u /\
  (forall z, Qabs (v - inject_Z (round_even n d) * u) <= Qabs (v - inject_Z z * u)) /\
  (forall z, round_even n d <> z -> Qabs (v - inject_Z (round_even n d) * u) == Qabs (v - inject_Z z * u) -> Z.even (round_even n d) = true).
Proof.
  intros n d u v Hd Hu E.
  assert (A : forall z, Qabs (v - inject_Z z * u) == Qabs (q (n, d) - inject_Z z) * u).
  { intros z. rewrite E. setoid_replace (q (n, d) * u - inject_Z z * u) with ((q (n, d) - inject_Z z) * u) by ring. apply abs_scale; auto. }
  split; [|split].
  - rewrite A. apply Qmult_le_compat_r; [apply round_near; auto | lra].
  - intros z. rewrite !A. apply Qmult_le_compat_r; [apply round_best; auto | lra].
  - intros z N T. rewrite !A in T. apply (round_tie n d z); auto. apply (Qmult_inj_r _ _ u); [intros Z0; lra | exact T].
Qed.

(** * The decimal exponent *)
Lemma q_pow10 : forall x, q (scale 10 (1, 1)%Z x) == 10 ^ x.
Proof. intros x. rewrite q_scale by (cbn; lia). change (q (1, 1)%Z) with (1 / 1). change (inject_Z 10) with 10. field. Qed.
Definition p10 (x : Z) : Q := 10 ^ x.
Lemma log_up_ok : forall fuel nd x, pos nd -> 10 ^ x <= q nd -> q nd < 10 ^ (x + Z.of_nat fuel + 1) ->
  10 ^ (log_up fuel nd x) <= q nd /\ q nd < 10 ^ (log_up fuel nd x + 1).
Proof.
  induction fuel as [|f IH]; intros nd x P L U; cbn [log_up].
  - replace (x + Z.of_nat 0 + 1)%Z with (x + 1)%Z in U by lia. auto.
  - destruct (frac_le (scale 10 (1, 1)%Z (x + 1)) nd) eqn:E.
    + apply frac_le_q in E; [|apply scale_snd; cbn; lia | apply P]. rewrite q_pow10 in E.
      apply IH; auto. replace (x + 1 + Z.of_nat f + 1)%Z with (x + Z.of_nat (S f) + 1)%Z by lia. auto.
    + apply frac_lt_q in E; [|apply scale_snd; cbn; lia | apply P]. rewrite q_pow10 in E. auto.
Qed.
Lemma log_down_ok : forall fuel nd x, pos nd -> q nd < 10 ^ (x + 1) -> 10 ^ (x - Z.of_nat fuel) <= q nd ->
  10 ^ (log_down fuel nd x) <= q nd /\ q nd < 10 ^ (log_down fuel nd x + 1).
Proof.
  induction fuel as [|f IH]; intros nd x P U L; cbn [log_down].
  - replace (x - Z.of_nat 0)%Z with x in L by lia. auto.
  - destruct (frac_le (scale 10 (1, 1)%Z x) nd) eqn:E.
    + apply frac_le_q in E; [|apply scale_snd; cbn; lia | apply P]. rewrite q_pow10 in E. auto.
    + apply frac_lt_q in E; [|apply scale_snd; cbn; lia | apply P]. rewrite q_pow10 in E.
      apply IH; auto; [replace (x - 1 + 1)%Z with x by lia; auto|].
      replace (x - 1 - Z.of_nat f)%Z with (x - Z.of_nat (S f))%Z by lia. auto.
Qed.
Lemma log10_ok : forall nd, pos nd -> 10 ^ (-400) <= q nd -> q nd < 10 ^ 400 ->
  10 ^ (log10 nd) <= q nd /\ q nd < 10 ^ (log10 nd + 1).
Proof.
  intros nd P L U. unfold log10.
  assert (Q1 : q (1, 1)%Z == 1) by reflexivity.
  destruct (frac_le (1, 1)%Z nd) eqn:E.
  - apply frac_le_q in E; [|cbn; lia | apply P]. rewrite Q1 in E. apply log_up_ok; auto.
    change (0 + Z.of_nat 400 + 1)%Z with 401%Z. eapply Qlt_trans; [exact U|]. apply (pw_lt 10); lia.
  - apply frac_lt_q in E; [|cbn; lia | apply P]. rewrite Q1 in E. apply log_down_ok; auto.
    change (-1 - Z.of_nat 400)%Z with (-401)%Z. eapply Qle_trans; [|exact L]. apply (pw_le 10); lia.
Qed.

(** * Significant digits *)
Lemma sig_ok : forall p nd x k, (1 <= p)%Z -> pos nd -> 10 ^ (-400) <= q nd -> q nd < 10 ^ 400 -> sig p nd = (x, k) ->
  exists X, (10 ^ X <= q nd /\ q nd < 10 ^ (X + 1)) /\ (x = X \/ x = X + 1)%Z /\
    (10 ^ (p - 1) <= k < 10 ^ p)%Z /\
    Qabs (q nd - inject_Z k * 10 ^ (x - p + 1)) <= (1 # 2) * 10 ^ (X - p + 1) /\
    (forall z, Qabs (q nd - inject_Z k * 10 ^ (x - p + 1)) <= Qabs (q nd - inject_Z z * 10 ^ (X - p + 1))).
Proof.
  intros p nd x k Hp P L U E. unfold sig in E. pose proof (log10_ok nd P L U) as LG. set (X := log10 nd) in *.
  pose proof (scale_snd 10 nd (p - 1 - X) ltac:(lia) ltac:(apply P)) as Sp.
  pose proof (q_scale 10 nd (p - 1 - X) ltac:(lia) ltac:(apply P)) as Sq.
  destruct (scale 10 nd (p - 1 - X)) as [n d]. cbn [snd] in Sp. change (inject_Z 10) with 10 in Sq.
  assert (Up : 0 < 10 ^ (X - p + 1)) by apply (pw_pos 10 _ eq_refl).
  assert (V : q nd == q (n, d) * 10 ^ (X - p + 1)).
  { rewrite Sq. rewrite <- Qmult_assoc. rewrite <- (pw_plus 10) by lia. replace (p - 1 - X + (X - p + 1))%Z with 0%Z by lia. change (inject_Z 10 ^ 0) with 1. ring. }
  destruct (grid n d _ _ Sp Up V) as (G1 & G2 & _).
  set (r := round_even n d) in *.
  assert (B : (10 ^ (p - 1) <= r <= 10 ^ p)%Z).
  { assert (SX : q (n, d) == q nd * 10 ^ (p - 1 - X)) by exact Sq.
    assert (W : 0 < 10 ^ (p - 1 - X)) by apply (pw_pos 10 _ eq_refl).
    assert (L1 : inject_Z (10 ^ (p - 1)) <= q (n, d)).
    { rewrite SX, <- pw_Z by lia. change (inject_Z 10) with 10. replace (p - 1)%Z with (X + (p - 1 - X))%Z at 1 by lia. rewrite (pw_plus 10) by lia.
      apply Qmult_le_compat_r; [apply LG | lra]. }
    assert (U1 : q (n, d) < inject_Z (10 ^ p)).
    { rewrite SX, <- pw_Z by lia. change (inject_Z 10) with 10. replace p with (X + 1 + (p - 1 - X))%Z at 2 by lia. rewrite (pw_plus 10) by lia.
      apply Qmult_lt_compat_r; [exact W | apply LG]. }
    pose proof (round_near n d Sp) as R. fold r in R. apply Qabs_Qle_condition in R.
    assert (R1 : inject_Z (10 ^ (p - 1) - 1) < inject_Z r /\ inject_Z r < inject_Z (10 ^ p + 1)).
    { set (t := (10 ^ (p - 1))%Z) in *. unfold Zminus. rewrite !inject_Z_plus. change (inject_Z (-(1))) with (-1). change (inject_Z 1) with 1. lra. }
    destruct R1 as [R1 R2]. apply inj_lt in R1, R2. lia. }
  exists X. split; [exact LG|].
  destruct (Z.eqb_spec r (10 ^ p)) as [T|T]; injection E as <- <-.
  - split; [auto|]. split; [split; [lia | apply Z.pow_lt_mono_r; lia]|].
    assert (S : inject_Z (10 ^ (p - 1)) * 10 ^ (X + 1 - p + 1) == inject_Z r * 10 ^ (X - p + 1)).
    { rewrite T, <- !pw_Z by lia. change (inject_Z 10) with 10. rewrite <- !(pw_plus 10) by lia. replace (p - 1 + (X + 1 - p + 1))%Z with (p + (X - p + 1))%Z by lia. reflexivity. }
    setoid_rewrite S. auto.
  - split; [auto|]. split; [lia|]. auto.
Qed.
(** Nothing with p digits is nearer *)
Lemma sig_best : forall p nd x k w, (1 <= p)%Z -> pos nd -> 10 ^ (-400) <= q nd -> q nd < 10 ^ 400 -> sig p nd = (x, k) ->
  sig_digits p w -> Qabs (q nd - inject_Z k * 10 ^ (x - p + 1)) <= Qabs (q nd - w).
Proof.
  intros p nd x k w Hp P L U E (k' & j & Hk & Hw).
  destruct (sig_ok p nd x k Hp P L U E) as (X & (L1 & U1) & _ & _ & _ & G).
  rewrite Hw. destruct (Z.le_gt_cases (X - p + 1) j) as [J|J].
  - specialize (G (k' * 10 ^ (j - (X - p + 1)))%Z). eapply Qle_trans; [exact G|]. rewrite inject_Z_mult, <- pw_Z by lia.
    change (inject_Z 10) with 10. rewrite <- Qmult_assoc, <- (pw_plus 10) by lia. replace (j - (X - p + 1) + (X - p + 1))%Z with j by lia. apply Qle_refl.
  - specialize (G (10 ^ (p - 1))%Z). rewrite <- pw_Z in G by lia. change (inject_Z 10) with 10 in G. rewrite <- (pw_plus 10) in G by lia.
    replace (p - 1 + (X - p + 1))%Z with X in G by lia. change (inject_Z 10) with 10 in G.
    eapply Qle_trans; [exact G|].
    assert (B : inject_Z k' * 10 ^ j < 10 ^ X).
    { assert (B1 : inject_Z k' < inject_Z (10 ^ p)) by (apply (proj1 (inj_lt _ _)); lia). rewrite <- pw_Z in B1 by lia. change (inject_Z 10) with 10 in B1.
      assert (B2 : 0 < 10 ^ j) by apply (pw_pos 10 _ eq_refl).
      assert (B3 : inject_Z k' * 10 ^ j < 10 ^ p * 10 ^ j) by (apply Qmult_lt_compat_r; auto).
      rewrite <- (pw_plus 10) in B3 by lia. eapply Qlt_le_trans; [exact B3|]. apply (pw_le 10); lia. }
    rewrite (Qabs_pos (q nd - 10 ^ X)) by lra. rewrite (Qabs_pos (q nd - _)) by lra. lra.
Qed.
