From Coq Require Import ZArith QArith Qpower Qabs List Bool Lia SpecFloat.
Import ListNotations.
From Verif Require Import Bits ValModel ValSpec.
Local Open Scope Z_scope.

(** * strcmp *)
Fixpoint cut (s : list Z) : list Z := match s with [] => [] | c :: s => if c =? 0 then [] else c :: cut s end.
Lemma strcmp_opp : forall s t, strcmp t s = - strcmp s t.
Proof.
  induction s as [|a s IH]; intros [|b t]; cbn [strcmp]; try reflexivity.
  - destruct (0 <? b) eqn:E1, (b <? 0) eqn:E2; try zb. destruct (Z.eqb_spec b 0); reflexivity.
  - destruct (0 <? a) eqn:E1, (a <? 0) eqn:E2; try zb. destruct (Z.eqb_spec a 0); reflexivity.
  - destruct (a <? b) eqn:E1, (b <? a) eqn:E2; try zb.
    assert (a = b) by zb. subst b. destruct (a =? 0); auto.
Qed.
Lemma strcmp_zero : forall s t, strcmp s t = 0 <-> cut s = cut t.
Proof.
  induction s as [|a s IH]; intros [|b t]; cbn [strcmp cut]; [tauto | | |].
  - destruct (Z.eqb_spec b 0); [subst; cbn; tauto|]. destruct (0 <? b) eqn:E1, (b <? 0) eqn:E2; try (exfalso; zb); split; intros; discriminate.
  - destruct (Z.eqb_spec a 0); [subst; cbn; tauto|]. destruct (0 <? a) eqn:E1, (a <? 0) eqn:E2; try (exfalso; zb); split; intros; discriminate.
  - destruct (a <? b) eqn:E1, (b <? a) eqn:E2; try (exfalso; zb).
    + split; [discriminate|]. destruct (Z.eqb_spec a 0), (Z.eqb_spec b 0); try discriminate; try (exfalso; zb). intros H; injection H; intros; exfalso; zb.
    + split; [discriminate|]. destruct (Z.eqb_spec a 0), (Z.eqb_spec b 0); try discriminate; try (exfalso; zb). intros H; injection H; intros; exfalso; zb.
    + assert (a = b) by zb. subst b. destruct (Z.eqb_spec a 0); [tauto|]. rewrite IH. split; [congruence | intros H; injection H; auto].
Qed.
Lemma cut_no_nul : forall s, no_nul s -> cut s = s.
Proof. induction 1 as [|c s H _ IH]; cbn; auto. destruct (Z.eqb_spec c 0); [lia | congruence]. Qed.
Lemma strcmp_before : forall s t, no_nul s -> no_nul t -> strcmp s t < 0 <-> before s t.
Proof.
  induction s as [|a s IH]; intros [|b t] Hs Ht; cbn [strcmp].
  - split; [cbn; lia | inversion 1].
  - inversion Ht; subst. split; [constructor|]. destruct (0 <? b) eqn:E; zb.
  - inversion Hs; subst. split; [|inversion 1]. destruct (a <? 0) eqn:E; [zb|]. destruct (0 <? a) eqn:E2; [lia | zb].
  - inversion Hs as [|? ? Ha Hs']; inversion Ht as [|? ? Hb Ht']; subst.
    destruct (a <? b) eqn:E1; [split; [intros; apply before_char; zb | lia]|].
    destruct (b <? a) eqn:E2; [split; [lia | inversion 1; subst; zb]|].
    assert (a = b) by zb. subst b. destruct (Z.eqb_spec a 0); [lia|]. rewrite IH by auto.
    split; [apply before_next | inversion 1; subst; auto; lia].
Qed.

(** * Equality of numbers *)
Definition nkey (x : num) : option num :=
  match x with S754_nan => None | S754_zero _ => Some (S754_zero false) | _ => Some x end.
Lemma num_eq_key : forall x y, num_eq x y = true <-> exists k, nkey x = Some k /\ nkey y = Some k.
Proof.
  intros x y. unfold num_eq, SFeqb. split.
  - destruct x as [sx|[|]| |[|] mx ex], y as [sy|[|]| |[|] my ey]; cbn [SFcompare nkey]; intros H; try discriminate; eauto;
      destruct (Z.compare_spec ex ey) as [->| |]; try discriminate;
      (destruct (Pos.compare_cont Eq mx my) eqn:E; cbn [CompOpp] in H; try discriminate);
      apply Pos.compare_eq in E; subst; eauto.
  - intros (k & Hx & Hy). destruct x as [sx|[|]| |[|] mx ex], y as [sy|[|]| |[|] my ey]; cbn [nkey] in *; try congruence; try reflexivity;
      rewrite <- Hx in Hy; injection Hy as -> ->; cbn [SFcompare]; rewrite Z.compare_refl;
      change (Pos.compare_cont Eq mx mx) with (Pos.compare mx mx); rewrite Pos.compare_refl; reflexivity.
Qed.

(** * Values of doubles *)
Lemma pow2Q : forall e ez, ez <= e -> (Qpower 2 e == inject_Z (2 ^ (e - ez)) * Qpower 2 ez)%Q.
Proof.
  intros e ez H. replace e with ((e - ez) + ez) at 1 by lia. rewrite Qpower_plus by discriminate.
  rewrite Zpower_Qpower by lia. reflexivity.
Qed.
Lemma pow2Q_pos : forall e, (0 < Qpower 2 e)%Q.
Proof. intros. apply Qpower_0_lt. reflexivity. Qed.
Definition sig (s : bool) (m : positive) : Z := if s then Z.neg m else Z.pos m.
Lemma value_scaled : forall s m e ez, ez <= e ->
  (inject_Z (sig s m) * Qpower 2 e == inject_Z (sig s m * 2 ^ (e - ez)) * Qpower 2 ez)%Q.
Proof. intros. rewrite (pow2Q e ez) by auto. rewrite inject_Z_mult, Qmult_assoc. reflexivity. Qed.
(** Comparison of integers times a power of two *)
Lemma scaled_lt : forall a b e, (inject_Z a * Qpower 2 e < inject_Z b * Qpower 2 e)%Q <-> a < b.
Proof. intros. rewrite Qmult_lt_r by apply pow2Q_pos. rewrite <- Zlt_Qlt. tauto. Qed.
Lemma scaled_eq : forall a b e, (inject_Z a * Qpower 2 e == inject_Z b * Qpower 2 e)%Q <-> a = b.
Proof.
  intros. rewrite Qmult_inj_r; [|intros H; pose proof (pow2Q_pos e) as P; rewrite H in P; discriminate].
  split; [intros H; apply inject_Z_injective; auto | intros ->; reflexivity].
Qed.

Lemma digits_log2 : forall p, Zpos (digits2_pos p) = Z.log2 (Zpos p) + 1.
Proof.
  induction p as [p IH|p IH|]; cbn [digits2_pos]; [| |reflexivity].
  - rewrite Pos2Z.inj_succ, IH. change (Zpos p~1) with (2 * Zpos p + 1). rewrite Z.log2_succ_double by lia. lia.
  - rewrite Pos2Z.inj_succ, IH. change (Zpos p~0) with (2 * Zpos p). rewrite Z.log2_double by lia. lia.
Qed.
Lemma canonical_spec : forall m e, canonical_mantissa 53 1024 m e = true ->
  -1074 <= e /\ Z.log2 (Zpos m) <= 52 /\ (-1074 < e -> Z.log2 (Zpos m) = 52).
Proof.
  intros m e H. unfold canonical_mantissa in H. apply Zeq_bool_eq in H. unfold fexp, emin in H. rewrite digits_log2 in H. lia.
Qed.
(** Smaller exponent: smaller magnitude *)
Lemma exponent_lt : forall m1 e1 m2 e2, canonical_mantissa 53 1024 m1 e1 = true -> canonical_mantissa 53 1024 m2 e2 = true ->
  e1 < e2 -> Zpos m1 < Zpos m2 * 2 ^ (e2 - e1).
Proof.
  intros m1 e1 m2 e2 H1 H2 He. apply canonical_spec in H1. apply canonical_spec in H2. destruct H1 as (A1 & A2 & _), H2 as (_ & _ & B3).
  specialize (B3 ltac:(lia)). pose proof (Z.log2_spec (Zpos m1) ltac:(lia)) as [_ L1]. pose proof (Z.log2_spec (Zpos m2) ltac:(lia)) as [L2 _].
  rewrite B3 in L2. assert (2 ^ Z.succ (Z.log2 (Zpos m1)) <= 2 ^ 53) by (apply Z.pow_le_mono_r; lia).
  assert (2 ^ 1 <= 2 ^ (e2 - e1)) by (apply Z.pow_le_mono_r; lia). change (2 ^ 53) with (2 ^ 52 * 2) in *. change (2 ^ 1) with 2 in *. nia.
Qed.
Definition finite_value (x : num) : Prop := exists q, value_of x = Some q.
(** The comparison of doubles is the comparison of their values *)
Lemma compare_values : forall x y p q, double x -> double y -> value_of x = Some p -> value_of y = Some q ->
  SFcompare x y = Some (p ?= q)%Q.
Proof.
  intros x y p q Dx Dy Hp Hq.
  assert (SG : forall s m e, (inject_Z (sig s m) * Qpower 2 e < 0)%Q <-> s = true).
  { intros s m e. setoid_replace 0%Q with (inject_Z 0 * Qpower 2 e)%Q by ring. rewrite scaled_lt. destruct s; cbn; split; intros; auto; lia. }
  assert (SG2 : forall s m e, (0 < inject_Z (sig s m) * Qpower 2 e)%Q <-> s = false).
  { intros s m e. setoid_replace 0%Q with (inject_Z 0 * Qpower 2 e)%Q by ring. rewrite scaled_lt. destruct s; cbn; split; intros; auto; lia. }
  destruct x as [sx|sx| |sx mx ex]; try discriminate; destruct y as [sy|sy| |sy my ey]; try discriminate; cbn [value_of] in *;
    injection Hp as <-; injection Hq as <-; cbn [SFcompare].
  - reflexivity.
  - symmetry. f_equal. fold (sig sy my). destruct sy; [apply Qgt_alt, SG | apply Qlt_alt, SG2]; reflexivity.
  - symmetry. f_equal. fold (sig sx mx). destruct sx; [apply Qlt_alt, SG | apply Qgt_alt, SG2]; reflexivity.
  - f_equal. symmetry. fold (sig sx mx) (sig sy my). unfold double, valid_binary, bounded in Dx, Dy.
    apply andb_true_iff in Dx. apply andb_true_iff in Dy. destruct Dx as [Cx _], Dy as [Cy _].
    assert (KEY : (inject_Z (sig sx mx) * Qpower 2 ex ?= inject_Z (sig sy my) * Qpower 2 ey)%Q =
                  (sig sx mx * 2 ^ (ex - Z.min ex ey) ?= sig sy my * 2 ^ (ey - Z.min ex ey))).
    { set (ez := Z.min ex ey). destruct (Z.compare_spec (sig sx mx * 2 ^ (ex - ez)) (sig sy my * 2 ^ (ey - ez))) as [E|E|E].
      - apply Qeq_alt. rewrite (value_scaled sx mx ex ez), (value_scaled sy my ey ez) by (unfold ez; lia). rewrite E. reflexivity.
      - apply Qlt_alt. rewrite (value_scaled sx mx ex ez), (value_scaled sy my ey ez) by (unfold ez; lia). apply scaled_lt. auto.
      - apply Qgt_alt. rewrite (value_scaled sx mx ex ez), (value_scaled sy my ey ez) by (unfold ez; lia). apply scaled_lt. auto. }
    rewrite KEY. clear KEY SG SG2.
    assert (P1 : 0 < 2 ^ (ex - Z.min ex ey)) by (apply Z.pow_pos_nonneg; lia).
    assert (P2 : 0 < 2 ^ (ey - Z.min ex ey)) by (apply Z.pow_pos_nonneg; lia).
    destruct sx, sy; cbn [sig].
    + rewrite <- !Pos2Z.opp_pos. rewrite !Z.mul_opp_l, Z.compare_opp.
      destruct (Z.compare_spec ex ey) as [E|E|E].
      * subst ey. rewrite Z.min_id, Z.sub_diag, !Z.mul_1_r. change (Pcompare mx my Eq) with (Pos.compare mx my).
        rewrite <- Pos.compare_antisym. reflexivity.
      * pose proof (exponent_lt _ _ _ _ Cx Cy E). rewrite Z.min_l by lia. rewrite Z.sub_diag, Z.mul_1_r. apply Z.compare_gt_iff. auto.
      * pose proof (exponent_lt _ _ _ _ Cy Cx E). rewrite Z.min_r by lia. rewrite Z.sub_diag, Z.mul_1_r. apply Z.compare_lt_iff. auto.
    + apply Z.compare_lt_iff. nia.
    + apply Z.compare_gt_iff. nia.
    + destruct (Z.compare_spec ex ey) as [E|E|E].
      * subst ey. rewrite Z.min_id, Z.sub_diag, !Z.mul_1_r. reflexivity.
      * pose proof (exponent_lt _ _ _ _ Cx Cy E). rewrite Z.min_l by lia. rewrite Z.sub_diag, Z.mul_1_r. apply Z.compare_lt_iff. auto.
      * pose proof (exponent_lt _ _ _ _ Cy Cx E). rewrite Z.min_r by lia. rewrite Z.sub_diag, Z.mul_1_r. apply Z.compare_gt_iff. auto.
Qed.

(** * Rounding keeps what is at least 1 at least 1 *)
Lemma shr_1_half : forall r, 0 <= shr_m r -> shr_m (shr_1 r) = shr_m r / 2.
Proof.
  intros [m r s] H. cbn [shr_m] in *. unfold shr_1. destruct m as [|[p|p|]|p]; try lia; cbn [shr_m]; try reflexivity.
  - rewrite Pos2Z.inj_xI. apply Z.div_unique with 1; lia.
  - rewrite Pos2Z.inj_xO. apply Z.div_unique with 0; lia.
Qed.
Lemma iter_shr : forall p r, 0 <= shr_m r -> shr_m (iter_pos shr_1 p r) = shr_m r / 2 ^ Zpos p /\ 0 <= shr_m (iter_pos shr_1 p r).
Proof.
  assert (D : forall a i j, 0 <= i -> 0 <= j -> a / 2 ^ i / 2 ^ j = a / 2 ^ (i + j)).
  { intros a i j Hi Hj. rewrite Z.div_div, <- Z.pow_add_r; auto; try (apply Z.pow_pos_nonneg; lia).
    intros X; pose proof (Z.pow_pos_nonneg 2 i); lia. }
  induction p as [p IH|p IH|]; intros r H; cbn [iter_pos].
  - pose proof (shr_1_half r H) as H1. assert (0 <= shr_m (shr_1 r)) as H2 by (rewrite H1; apply Z.div_pos; lia).
    destruct (IH _ H2) as [A1 A2]. destruct (IH _ A2) as [B1 B2]. split; auto.
    rewrite B1, A1, H1. change (shr_m r / 2) with (shr_m r / 2 ^ 1). rewrite !D by lia. apply (f_equal (fun k => shr_m r / 2 ^ k)). lia.
  - destruct (IH _ H) as [A1 A2]. destruct (IH _ A2) as [B1 B2]. split; auto.
    rewrite B1, A1, D by lia. apply (f_equal (fun k => shr_m r / 2 ^ k)). lia.
  - rewrite shr_1_half by auto. split; auto. apply Z.div_pos; lia.
Qed.
Lemma shr_fexp_big : forall m e l r e', 0 < m -> 0 <= Z.log2 m + e -> shr_fexp 53 1024 m e l = (r, e') ->
  0 < shr_m r /\ 0 <= Z.log2 (shr_m r) + e'.
Proof.
  intros m e l r e' Hm Hb H. unfold shr_fexp in H.
  assert (HM : shr_m (shr_record_of_loc m l) = m) by (destruct l as [|[| |]]; reflexivity).
  assert (HD : Zdigits2 m = Z.log2 m + 1) by (destruct m; try lia; apply digits_log2).
  rewrite HD in H. unfold fexp, emin in H. rewrite Z.max_l in H by lia.
  remember (Z.log2 m + 1 + e - 53 - e) as n eqn:En. unfold shr in H.
  destruct n as [|n|n]; try (injection H as <- <-; rewrite HM; auto).
  destruct (iter_shr n (shr_record_of_loc m l) ltac:(rewrite HM; lia)) as [A1 A2]. rewrite HM in A1.
  injection H as <- <-. rewrite A1. rewrite <- Z.shiftr_div_pow2 by lia.
  assert (HL : Z.log2 (Z.shiftr m (Zpos n)) = Z.log2 m - Zpos n) by (rewrite Z.log2_shiftr by lia; lia).
  assert (P : 0 < Z.shiftr m (Zpos n)).
  { rewrite Z.shiftr_div_pow2 by lia. apply Z.div_str_pos. split; [apply Z.pow_pos_nonneg; lia|].
    apply Z.le_trans with (2 ^ Z.log2 m); [apply Z.pow_le_mono_r; lia | apply Z.log2_spec; lia]. }
  split; auto. rewrite HL. lia.
Qed.
Definition big (x : num) : Prop :=
  match x with S754_zero _ => False | S754_finite _ m e => 0 <= Z.log2 (Zpos m) + e | _ => True end.
Lemma round_up : forall m l, m <= round_nearest_even m l <= m + 1.
Proof. intros m [|[| |]]; cbn; try lia. destruct (Z.even m); lia. Qed.
Lemma binary_round_aux_big : forall s m e l, 0 < m -> 0 <= Z.log2 m + e -> big (binary_round_aux 53 1024 s m e l).
Proof.
  intros s m e l Hm Hb. unfold binary_round_aux.
  destruct (shr_fexp 53 1024 m e l) as [r1 e1] eqn:E1. destruct (shr_fexp_big _ _ _ _ _ Hm Hb E1) as [A1 A2].
  set (m2 := round_nearest_even (shr_m r1) (loc_of_shr_record r1)).
  pose proof (round_up (shr_m r1) (loc_of_shr_record r1)) as RU. fold m2 in RU.
  destruct (shr_fexp 53 1024 m2 e1 loc_Exact) as [r2 e2] eqn:E2.
  assert (Z.log2 (shr_m r1) <= Z.log2 m2) by (apply Z.log2_le_mono; lia).
  destruct (shr_fexp_big m2 e1 loc_Exact r2 e2 ltac:(lia) ltac:(lia) E2) as [B1 B2].
  destruct (shr_m r2) as [|p|p]; try lia. destruct (_ <=? _); cbn [big]; auto.
Qed.
Lemma shift_pos_mul : forall d m, Zpos (shift_pos d m) = Zpos m * 2 ^ Zpos d.
Proof. intros. rewrite shift_pos_correct, Z.mul_comm. reflexivity. Qed.
Lemma shl_align_value : forall m e e', let '(m', f) := shl_align m e e' in Zpos m' = Zpos m * 2 ^ (e - f) /\ f <= e /\ (e' <= e -> f = e').
Proof.
  intros m e e'. unfold shl_align. destruct (e' - e) as [|d|d] eqn:E.
  - rewrite Z.sub_diag. lia.
  - rewrite Z.sub_diag. lia.
  - rewrite shift_pos_mul. replace (e - e') with (Zpos d) by lia. lia.
Qed.
Lemma binary_round_big : forall s m e, 0 <= Z.log2 (Zpos m) + e -> big (binary_round 53 1024 s m e).
Proof.
  intros s m e H. unfold binary_round. pose proof (shl_align_value m e (fexp 53 1024 (Z.pos (digits2_pos m) + e))) as A.
  destruct (shl_align m e (fexp 53 1024 (Z.pos (digits2_pos m) + e))) as [m' f]. destruct A as (A1 & A2 & _).
  apply binary_round_aux_big; [lia|]. rewrite A1, Z.log2_mul_pow2 by lia. lia.
Qed.
Lemma big_int : forall x, big x -> int_of_double x <> 0.
Proof.
  intros [s|s| |s m e] H; cbn [big int_of_double] in *; try contradiction; try discriminate.
  assert (P : 1 <= if 0 <=? e then Z.pos m * 2 ^ e else Z.pos m / 2 ^ (- e)).
  { destruct (0 <=? e) eqn:E.
    - pose proof (Z.pow_pos_nonneg 2 e ltac:(lia) ltac:(zb)). nia.
    - apply Z.div_le_lower_bound; [apply Z.pow_pos_nonneg; zb|]. rewrite Z.mul_1_r.
      apply Z.le_trans with (2 ^ Z.log2 (Zpos m)); [apply Z.pow_le_mono_r; zb | apply Z.log2_spec; lia]. }
  destruct (_ && _); [destruct s; lia | discriminate].
Qed.
Lemma aligned : forall m e ez, ez <= e -> Zpos (fst (shl_align m e ez)) = Zpos m * 2 ^ (e - ez).
Proof.
  intros m e ez H. pose proof (shl_align_value m e ez) as A. destruct (shl_align m e ez) as [m' f]. cbn [fst].
  destruct A as (A1 & _ & A3). rewrite (A3 H) in A1. auto.
Qed.
(** The integer whose multiple of 2^ez is the exact difference *)
Lemma sub_exact : forall sx mx ex sy my ey, let ez := Z.min ex ey in
  num_sub (S754_finite sx mx ex) (S754_finite sy my ey) =
    binary_normalize 53 1024 (sig sx mx * 2 ^ (ex - ez) - sig sy my * 2 ^ (ey - ez)) ez false.
Proof.
  intros. unfold num_sub, SFsub. fold ez. rewrite !aligned by (unfold ez; lia).
  f_equal. unfold cond_Zopp. destruct sx, sy; cbn [sig]; lia.
Qed.
Lemma one_scaled : forall M ez, (1 <= Qabs (inject_Z M * Qpower 2 ez))%Q -> M <> 0 /\ 0 <= Z.log2 (Z.abs M) + ez.
Proof.
  intros M ez H. rewrite Qabs_Qmult in H. rewrite (Qabs_pos (Qpower 2 ez)) in H by (apply Qlt_le_weak, pow2Q_pos).
  assert (HA : Qabs (inject_Z M) = inject_Z (Z.abs M)) by reflexivity. rewrite HA in H.
  assert (NZ : M <> 0) by (intros ->; cbn in H; apply (Qlt_not_le 0 1); [reflexivity|]; rewrite Qmult_0_l in H; auto).
  split; auto. destruct (Z.le_gt_cases 0 ez) as [E|E].
  - pose proof (Z.log2_nonneg (Z.abs M)). lia.
  - assert (2 ^ (- ez) <= Z.abs M).
    { rewrite Zle_Qle. setoid_replace (inject_Z (Z.abs M)) with ((inject_Z (Z.abs M) * Qpower 2 ez) * Qpower 2 (- ez))%Q.
      - rewrite Zpower_Qpower by lia. setoid_replace (inject_Z 2 ^ (- ez))%Q with (1 * (2 ^ (- ez)))%Q at 1 by (unfold inject_Z; ring).
        apply Qmult_le_compat_r; auto. apply Qlt_le_weak, pow2Q_pos.
      - rewrite <- Qmult_assoc, <- Qpower_plus by discriminate. replace (ez + - ez) with 0 by lia. cbn [Qpower]. ring. }
    assert (- ez <= Z.log2 (Z.abs M)); [|lia]. apply Z.log2_le_pow2; lia.
Qed.
Lemma normalize_big : forall M ez z, M <> 0 -> 0 <= Z.log2 (Z.abs M) + ez -> big (binary_normalize 53 1024 M ez z).
Proof. intros [|p|p] ez z H Hb; [contradiction | |]; cbn [binary_normalize]; apply binary_round_big; auto. Qed.
Lemma sig_neg : forall s m, sig (negb s) m = - sig s m. Proof. intros [|] m; reflexivity. Qed.

(** The difference of two doubles, cut to an int, is not 0 when they differ by 1 or more, and is 0
    when they are equal. *)
Lemma difference_far : forall x y p q, value_of x = Some p -> value_of y = Some q -> (1 <= Qabs (p - q))%Q ->
  int_of_double (num_sub x y) <> 0.
Proof.
  intros x y p q Hp Hq H. apply big_int.
  destruct x as [sx|sx| |sx mx ex]; try discriminate; destruct y as [sy|sy| |sy my ey]; try discriminate; cbn [value_of] in *;
    injection Hp as <-; injection Hq as <-.
  - exfalso. revert H. cbn. intros H. apply (Qlt_not_le 0 1); [reflexivity | exact H].
  - fold (sig sy my) in H. cbn [num_sub SFsub]. unfold num_sub. cbn [SFsub big].
    setoid_replace (0 - inject_Z (sig sy my) * Qpower 2 ey)%Q with (inject_Z (sig (negb sy) my) * Qpower 2 ey)%Q in H
      by (rewrite sig_neg, inject_Z_opp; ring).
    apply one_scaled in H. destruct H as [_ H]. destruct sy; cbn [sig negb] in H; exact H.
  - fold (sig sx mx) in H. unfold num_sub. cbn [SFsub big].
    setoid_replace (inject_Z (sig sx mx) * Qpower 2 ex - 0)%Q with (inject_Z (sig sx mx) * Qpower 2 ex)%Q in H by ring.
    apply one_scaled in H. destruct H as [_ H]. destruct sx; cbn [sig] in H; exact H.
  - fold (sig sx mx) (sig sy my) in H. rewrite sub_exact. cbv zeta. set (ez := Z.min ex ey).
    rewrite (value_scaled sx mx ex ez), (value_scaled sy my ey ez) in H by (unfold ez; lia).
    setoid_replace (inject_Z (sig sx mx * 2 ^ (ex - ez)) * Qpower 2 ez - inject_Z (sig sy my * 2 ^ (ey - ez)) * Qpower 2 ez)%Q
      with (inject_Z (sig sx mx * 2 ^ (ex - ez) - sig sy my * 2 ^ (ey - ez)) * Qpower 2 ez)%Q in H
      by (unfold Z.sub; rewrite (inject_Z_plus (_ * _)), inject_Z_opp; ring).
    apply one_scaled in H. destruct H. apply normalize_big; auto.
Qed.
Lemma difference_same : forall x y p q, value_of x = Some p -> value_of y = Some q -> (p == q)%Q ->
  int_of_double (num_sub x y) = 0.
Proof.
  intros x y p q Hp Hq H.
  assert (NZ : forall s m e, ~ (inject_Z (sig s m) * Qpower 2 e == 0)%Q).
  { intros s m e X. setoid_replace 0%Q with (inject_Z 0 * Qpower 2 e)%Q in X by ring. apply scaled_eq in X. destruct s; discriminate. }
  destruct x as [sx|sx| |sx mx ex]; try discriminate; destruct y as [sy|sy| |sy my ey]; try discriminate; cbn [value_of] in *;
    injection Hp as <-; injection Hq as <-.
  - unfold num_sub. cbn [SFsub]. destruct (Bool.eqb sx (negb sy)); reflexivity.
  - exfalso. symmetry in H. exact (NZ sy my ey H).
  - exfalso. exact (NZ sx mx ex H).
  - fold (sig sx mx) (sig sy my) in H. rewrite sub_exact. cbv zeta. set (ez := Z.min ex ey).
    rewrite (value_scaled sx mx ex ez), (value_scaled sy my ey ez) in H by (unfold ez; lia).
    apply scaled_eq in H. rewrite H, Z.sub_diag. reflexivity.
Qed.

(** * Swapping the operands of the difference *)
Lemma round_aux_sign : forall s m e l, binary_round_aux 53 1024 (negb s) m e l = SFopp (binary_round_aux 53 1024 s m e l).
Proof.
  intros. unfold binary_round_aux. destruct (shr_fexp 53 1024 m e l) as [r1 e1].
  destruct (shr_fexp 53 1024 _ e1 loc_Exact) as [r2 e2]. destruct (shr_m r2); try reflexivity. destruct (_ <=? _); reflexivity.
Qed.
Lemma round_sign : forall s m e, binary_round 53 1024 (negb s) m e = SFopp (binary_round 53 1024 s m e).
Proof. intros. unfold binary_round. destruct (shl_align _ _ _). apply round_aux_sign. Qed.
Lemma int_opp : forall x, int_of_double (SFopp x) = 0 <-> int_of_double x = 0.
Proof.
  intros [s|s| |s m e]; cbn [SFopp int_of_double]; try tauto.
  set (v := if 0 <=? e then _ else _). unfold INT_MIN.
  assert (0 <= v). { unfold v. destruct (0 <=? e) eqn:E; [apply Z.mul_nonneg_nonneg; [lia | apply Z.pow_nonneg; lia] | apply Z.div_pos; [lia | apply Z.pow_pos_nonneg; zb]]. }
  destruct s; cbn [negb];
    destruct (_ <=? - v) eqn:E1, (- v <=? _) eqn:E2, (_ <=? v) eqn:E3, (v <=? _) eqn:E4; cbn [andb]; zb.
Qed.
Lemma sub_swap : forall x y, int_of_double (num_sub y x) = 0 <-> int_of_double (num_sub x y) = 0.
Proof.
  intros x y. destruct x as [sx|sx| |sx mx ex], y as [sy|sy| |sy my ey]; try (unfold num_sub; cbn [SFsub]; tauto).
  - destruct sx, sy; unfold num_sub; cbn; tauto.
  - unfold num_sub. cbn [SFsub]. symmetry. apply (int_opp (S754_finite sy my ey)).
  - destruct sx, sy; unfold num_sub; cbn; tauto.
  - unfold num_sub. cbn [SFsub]. apply (int_opp (S754_finite sx mx ex)).
  - rewrite !sub_exact. cbv zeta. rewrite (Z.min_comm ey ex). set (ez := Z.min ex ey).
    set (M := sig sx mx * 2 ^ (ex - ez) - sig sy my * 2 ^ (ey - ez)).
    replace (sig sy my * 2 ^ (ey - ez) - sig sx mx * 2 ^ (ex - ez)) with (- M) by (unfold M; lia).
    destruct M as [|p|p]; cbn [Z.opp binary_normalize]; [tauto | |].
    + change true with (negb false). rewrite round_sign. apply int_opp.
    + change false with (negb true). rewrite round_sign. apply int_opp.
Qed.
