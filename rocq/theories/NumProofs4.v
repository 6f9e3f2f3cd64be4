(** Round trips *)
From Coq Require Import ZArith QArith Qpower Qabs Qround List Lia Lqa Bool SpecFloat.
From Verif Require Import UtfModel Bits NumModel NumSpec NumProofs NumProofs2 NumProofs3.
Import ListNotations.
Local Open Scope Q_scope.

(** * A double as a fraction *)
Lemma frac_pos : forall m e, pos (frac m e).
Proof. intros m e. unfold frac. apply scale_pos; [lia|]. split; cbn; lia. Qed.
Lemma frac_q : forall m e, q (frac m e) == inject_Z (Zpos m) * 2 ^ e.
Proof. intros m e. unfold frac. rewrite q_scale by (cbn; lia). change (inject_Z 2) with 2. unfold q. cbn [fst snd]. change (inject_Z 1) with 1. field. Qed.
Lemma mant_range : forall m e, mant m e -> 2 ^ (-1074) <= inject_Z (Zpos m) * 2 ^ e /\ inject_Z (Zpos m) * 2 ^ e < 2 ^ 1024.
Proof.
  intros m e M. assert (B : (1 <= Zpos m < 2 ^ 53 /\ -1074 <= e <= 971)%Z) by (destruct M; lia). destruct B as [[B1 B2] [B3 B4]].
  assert (U := p2_pos e). apply inj_le' in B1. apply inj_lt' in B2. change (inject_Z 1) with 1 in B1. rewrite p2_Z in B2 by lia. split.
  - apply (Qle_trans _ (2 ^ e)); [apply p2_le; auto|].
    assert (X : 1 * 2 ^ e <= inject_Z (Zpos m) * 2 ^ e) by (apply Qmult_le_compat_r; lra). lra.
  - assert (X : inject_Z (Zpos m) * 2 ^ e < 2 ^ 53 * 2 ^ e) by (apply Qmult_lt_compat_r; auto). rewrite <- p2_plus in X.
    eapply Qlt_le_trans; [exact X|]. apply p2_le. lia.
Qed.
Lemma low_10 : 10 ^ (-400) <= 2 ^ (-1074).
Proof. apply Qle_bool_iff. vm_compute. reflexivity. Qed.
Lemma high_10 : 2 ^ 1024 <= 10 ^ 400.
Proof. apply Qle_bool_iff. vm_compute. reflexivity. Qed.
Lemma frac_range : forall m e, mant m e -> 10 ^ (-400) <= q (frac m e) /\ q (frac m e) < 10 ^ 400.
Proof.
  intros m e M. rewrite frac_q. destruct (mant_range m e M) as [A B]. pose proof low_10. pose proof high_10. split; lra.
Qed.
(** What is printed with p digits *)
Lemma print_double : forall p m e, (1 <= p)%Z -> mant m e ->
  exists w X k x, magnitude (print_g p (frac m e)) w /\ w == inject_Z k * 10 ^ (x - p + 1) /\ (0 < k < 10 ^ p)%Z /\ (X <= x)%Z /\
    (10 ^ X <= inject_Z (Zpos m) * 2 ^ e /\ inject_Z (Zpos m) * 2 ^ e < 10 ^ (X + 1)) /\
    Qabs (inject_Z (Zpos m) * 2 ^ e - w) <= (1 # 2) * 10 ^ (X - p + 1) /\
    (forall w', sig_digits p w' -> Qabs (inject_Z (Zpos m) * 2 ^ e - w) <= Qabs (inject_Z (Zpos m) * 2 ^ e - w')).
Proof.
  intros p m e Hp M. destruct (frac_range m e M) as [L U]. destruct (sig p (frac m e)) as [x k] eqn:ES.
  destruct (sig_ok p _ x k Hp (frac_pos m e) L U ES) as (X & LG & HX & Hk & G1 & G2).
  assert (P1 : (0 < 10 ^ (p - 1))%Z) by (apply Z.pow_pos_nonneg; lia).
  assert (XB : (-401 < X < 400)%Z).
  { split.
    - assert (-400 < X + 1)%Z; [|lia]. apply (pw_lt_inv 10); [lia|]. change (inject_Z 10) with 10. lra.
    - apply (pw_lt_inv 10); [lia|]. change (inject_Z 10) with 10. lra. }
  destruct (print_g_writes p (frac m e) x k Hp ES Hk) as (w & W1 & W2); [change (10 ^ 19)%Z with 10000000000000000000%Z; lia|].
  exists w, X, k, x. split; [auto|]. split; [auto|]. split; [lia|]. split; [lia|].
  split; [rewrite <- (frac_q m e); auto|].
  split; [rewrite <- (frac_q m e), W2; auto|]. intros w' Hw'. rewrite <- (frac_q m e), W2. apply (sig_best p _ x k w' Hp (frac_pos m e) L U ES Hw').
Qed.

(** * Reading with a known sign *)
Lemma strtod_signed : forall (neg : bool) s v r, magnitude s v -> stop r ->
  exists n d, (0 <= n)%Z /\ (0 < d)%Z /\ q (n, d) == v /\ strtod ((if neg then [45%Z] else []) ++ s ++ r) = Some (to_double neg n d, r).
Proof.
  intros neg s v r M Hr. destruct neg; cbn [app].
  - destruct (body_reads true (45%Z :: s ++ r) s v r M Hr) as (n & d & A1 & A2 & A3 & A4). exists n, d. repeat (split; [auto|]). exact A4.
  - destruct (body_reads false (s ++ r) s v r M Hr) as (n & d & A1 & A2 & A3 & A4). exists n, d. repeat (split; [auto|]).
    destruct (magnitude_first s v M) as (c & t & E & C). unfold strtod. rewrite E in *. cbn [app skip_sp] in *.
    assert (SP : sspace c = false).
    { unfold sspace. destruct (Z.eqb_spec c 32); [lia|]. destruct (Z.leb_spec 9 c); [|reflexivity]. destruct (Z.leb_spec c 13); [lia|reflexivity]. }
    rewrite SP. destruct (Z.eqb_spec c 45); [lia|]. destruct (Z.eqb_spec c 43); [lia|]. exact A4.
Qed.
Lemma q_pos_inv : forall n d, (0 <= n)%Z -> (0 < d)%Z -> 0 < q (n, d) -> (0 < n)%Z.
Proof.
  intros n d Hn Hd H. destruct (Z.eq_dec n 0) as [->|]; [|lia]. exfalso.
  assert (E : q (0, d)%Z == 0) by (apply q_cross; cbn [fst snd]; [auto | change (inject_Z 0) with 0; ring]). lra.
Qed.
(** Text that writes a number exactly, or near enough *)
Lemma read_near : forall (neg : bool) s w r m e, magnitude s w -> stop r -> mant m e -> 0 < w ->
  Qabs (w - inject_Z (Zpos m) * 2 ^ e) < (1 # 2) * 2 ^ e ->
  ((Zpos m = 2 ^ 52)%Z -> inject_Z (Zpos m) * 2 ^ e - w < (1 # 4) * 2 ^ e) ->
  strtod ((if neg then [45%Z] else []) ++ s ++ r) = Some (S754_finite neg m e, r).
Proof.
  intros neg s w r m e Ms Hr M Hw H1 H2. destruct (strtod_signed neg s w r Ms Hr) as (n & d & A1 & A2 & A3 & A4). rewrite A4.
  rewrite (to_double_near neg n d m e); auto.
  - apply (q_pos_inv n d); auto. rewrite A3. auto.
  - rewrite A3. auto.
  - intros E _. rewrite A3. auto.
Qed.
Lemma num17 : 2 ^ 53 * 10 ^ (-16) < 1.
Proof. reflexivity. Qed.
Lemma num17b : 2 ^ 52 * 10 ^ (-16) < 1 # 2.
Proof. reflexivity. Qed.
Lemma dtoa_read : forall p (neg : bool) m e r, (17 <= p)%Z -> mant m e -> stop r ->
  strtod ((if neg then [45%Z] else []) ++ print_g p (frac m e) ++ r) = Some (S754_finite neg m e, r).
Proof.
  intros p neg m e r Hp M Hr. destruct (print_double p m e ltac:(lia) M) as (w & X & k & x & W1 & W2 & Hk & Hx & (L & U) & G & _).
  assert (Ue := p2_pos e).
  assert (WP : 0 < w). { rewrite W2. apply Qmult_lt_0_compat; [apply inj_pos; lia | apply p10_pos]. }
  assert (ST : 10 ^ (X - p + 1) <= inject_Z (Zpos m) * 2 ^ e * 10 ^ (-16)).
  { apply (Qle_trans _ (10 ^ X * 10 ^ (-16))).
    - rewrite <- p10_plus. apply (pw_le 10); lia.
    - apply Qmult_le_compat_r; [exact L | apply Qlt_le_weak, p10_pos]. }
  apply (read_near neg _ w); auto.
  - eapply Qle_lt_trans; [rewrite Qabs_Qminus; exact G|]. apply Qmult_lt_l; [reflexivity|].
    eapply Qle_lt_trans; [exact ST|].
    assert (MU : inject_Z (Zpos m) < 2 ^ 53) by (rewrite <- p2_Z by lia; apply inj_lt'; destruct M; lia).
    assert (P16 := p10_pos (-16)).
    assert (A : inject_Z (Zpos m) * 10 ^ (-16) < 2 ^ 53 * 10 ^ (-16)) by (apply Qmult_lt_compat_r; auto).
    pose proof num17.
    assert (B : inject_Z (Zpos m) * 10 ^ (-16) * 2 ^ e < 1 * 2 ^ e) by (apply Qmult_lt_compat_r; lra). lra.
  - intros E. rewrite E in *. apply Qabs_Qle_condition in G. rewrite p2_Z in * by lia.
    pose proof num17b.
    assert (B : 2 ^ 52 * 10 ^ (-16) * 2 ^ e < (1 # 2) * 2 ^ e) by (apply Qmult_lt_compat_r; lra). lra.
Qed.

(** * Integers *)
Lemma udec20 : forall n, (0 <= n < 10 ^ 20)%Z -> magnitude (udec 20 n []) (inject_Z n * 10 ^ 0).
Proof.
  intros n Hn. destruct (udec_ok 20 n) as (A & B & C); [change (10 ^ Z.of_nat 20)%Z with (10 ^ 20)%Z; lia | lia|].
  pose proof (mg_int (udec 20 n []) [] 0 B C et_none) as M. rewrite app_nil_r, A in M. exact M.
Qed.
Definition signed (s : bool) (v : Q) : Q := if s then - v else v.
Lemma integer_text : forall s m e, is_integer (S754_finite s m e) = true -> exists n, (0 < n <= 2 ^ 63)%Z /\
  inject_Z (Zpos m) * 2 ^ e == inject_Z n /\ itoa10 (to_wide (S754_finite s m e)) = (if s then [45%Z] else []) ++ udec 20 n [].
Proof.
  intros s m e H. unfold is_integer, to_wide in *. pose proof (frac_pos m e) as [P1 P2]. pose proof (frac_q m e) as FQ.
  destruct (frac m e) as [n d] eqn:EF. cbn [fst snd] in *. apply andb_true_iff in H. destruct H as [_ H]. apply Z.eqb_eq in H.
  set (v := if s then (- (n / d))%Z else (n / d)%Z) in *.
  assert (TW : to_wide (S754_finite s m e) = if ((- 2 ^ 63 <=? v) && (v <? 2 ^ 63))%Z%bool then v else (- 2 ^ 63)%Z).
  { unfold to_wide. rewrite EF. reflexivity. }
  set (t := if ((- 2 ^ 63 <=? v) && (v <? 2 ^ 63))%Z%bool then v else (- 2 ^ 63)%Z) in *.
  assert (TB : (- 2 ^ 63 <= t < 2 ^ 63)%Z).
  { unfold t. destruct (Z.leb_spec (- 2 ^ 63) v); cbn [andb]; [destruct (Z.ltb_spec v (2 ^ 63)); lia | lia]. }
  clearbody t. unfold itoa10.
  exists (Z.abs t). destruct s.
  - assert (T0 : (t < 0)%Z) by nia. destruct (Z.ltb_spec t 0); [|lia]. replace (Z.abs t) with (- t)%Z by lia. split; [lia|].
    split; [|reflexivity]. rewrite <- FQ. apply q_cross; [auto|]. cbn [fst snd]. rewrite <- inject_Z_mult. replace n with (- t * d)%Z by lia. reflexivity.
  - assert (T0 : (0 < t)%Z) by nia. destruct (Z.ltb_spec t 0); [lia|]. replace (Z.abs t) with t by lia. split; [lia|].
    split; [|reflexivity]. rewrite <- FQ. apply q_cross; [auto|]. cbn [fst snd]. rewrite <- inject_Z_mult. rewrite H. reflexivity.
Qed.
Lemma integer_read : forall s m e r, mant m e -> is_integer (S754_finite s m e) = true -> stop r ->
  strtod (itoa10 (to_wide (S754_finite s m e)) ++ r) = Some (S754_finite s m e, r).
Proof.
  intros s m e r M H Hr. destruct (integer_text s m e H) as (n & Hn & E & ->). rewrite <- app_assoc.
  assert (U := p2_pos e).
  assert (V : inject_Z n * 10 ^ 0 == inject_Z (Zpos m) * 2 ^ e) by (change (10 ^ 0) with 1; rewrite E; ring).
  apply (read_near s _ (inject_Z n * 10 ^ 0)); auto.
  - apply udec20. change (2 ^ 63)%Z with 9223372036854775808%Z in Hn. change (10 ^ 20)%Z with 100000000000000000000%Z. lia.
  - rewrite V. apply Qmult_lt_0_compat; [apply inj_pos; lia | auto].
  - rewrite V. setoid_replace (inject_Z (Zpos m) * 2 ^ e - inject_Z (Zpos m) * 2 ^ e) with 0 by ring. change (Qabs 0) with 0. lra.
  - intros _. rewrite V. lra.
Qed.
