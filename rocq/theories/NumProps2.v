(** Number.toFixed, toExponential and toPrecision *)
From Coq Require Import ZArith QArith Qpower Qabs Qround List Lia Lqa Bool SpecFloat.
From Verif Require Import UtfModel Bits NumModel NumSpec NumProofs NumProofs2 NumProofs3 NumProofs4 NumProofs5 NumProps.
Import ListNotations.
Local Open Scope Q_scope.

Lemma udec_length_le : forall f n j, (1 <= j)%nat -> (n < 10 ^ Z.of_nat j)%Z -> (0 <= n)%Z -> (length (udec f n []) <= j)%nat.
Proof.
  induction f as [|f IH]; intros n j Hj Hn H0; cbn [udec]; [cbn; lia|].
  destruct (Z.eqb_spec (n / 10) 0) as [Q|Q]; [cbn; lia|].
  rewrite udec_app, app_length. cbn [length]. destruct j as [|[|j]]; [lia| |].
  - change (10 ^ Z.of_nat 1)%Z with 10%Z in Hn. exfalso. apply Q. apply Z.div_small. lia.
  - rewrite Nat2Z.inj_succ, Z.pow_succ_r in Hn by lia. specialize (IH (n / 10)%Z (S j) ltac:(lia)).
    assert (n / 10 < 10 ^ Z.of_nat (S j))%Z by (apply Z.div_lt_upper_bound; lia). assert (0 <= n / 10)%Z by (apply Z.div_pos; lia). lia.
Qed.
Lemma digits_zeros : forall n, digits (repeat 48%Z n).
Proof. induction n; constructor; auto; lia. Qed.
Lemma round_lt : forall n d j, (0 < d)%Z -> (0 <= n)%Z -> (0 <= j)%Z -> q (n, d) < 10 ^ j -> (0 <= round_even n d <= 10 ^ j)%Z.
Proof.
  intros n d j Hd Hn Hj H. pose proof (round_near n d Hd) as R. apply Qabs_Qle_condition in R.
  assert (P : 0 <= q (n, d)).
  { assert (X := inj_le' 0 n Hn). assert (Y := inj_pos d Hd). rewrite <- (q_mul n d Hd) in X. change (inject_Z 0) with 0 in X.
    destruct (Qlt_le_dec (q (n, d)) 0) as [N|]; [|auto]. exfalso.
    assert (Z1 : q (n, d) * inject_Z d < 0 * inject_Z d) by (apply Qmult_lt_compat_r; auto). lra. }
  rewrite <- p10_Z in H by lia. set (r := round_even n d) in *. set (t := (10 ^ j)%Z) in *.
  assert (X : inject_Z (-1) < inject_Z r /\ inject_Z r < inject_Z (t + 1)).
  { rewrite inject_Z_plus. change (inject_Z (-1)) with (-1). change (inject_Z 1) with 1. lra. }
  destruct X as [X1 X2]. apply inj_lt_inv in X1, X2. lia.
Qed.
Lemma print_f_ok : forall p nd j, (0 <= p)%Z -> (0 <= fst nd)%Z -> (0 < snd nd)%Z -> (1 <= j <= 390)%Z -> q nd < 10 ^ j ->
  exists i f k, print_f p nd = i ++ point f /\ digits i /\ digits f /\ i <> [] /\ Z.of_nat (length f) = p /\ decimal (i ++ f) = k /\
    (Z.of_nat (length i) <= j + 1)%Z /\ (hd 0%Z i = 48%Z -> length i = 1%nat) /\
    forall z, Qabs (q nd - inject_Z k * 10 ^ (- p)) <= Qabs (q nd - inject_Z z * 10 ^ (- p)).
Proof.
  intros p nd j Hp H1 H2 Hj H. unfold print_f. pose proof (q_scale 10 nd p ltac:(lia) H2) as Q. change (inject_Z 10) with 10 in Q.
  pose proof (scale_snd 10 nd p ltac:(lia) H2) as S2. pose proof (scale_fst 10 nd p ltac:(lia) H1) as S1.
  destruct (scale 10 nd p) as [n d]. cbn [fst snd] in *.
  assert (U : 0 < 10 ^ (- p)) by apply p10_pos.
  assert (V : q nd == q (n, d) * 10 ^ (- p)).
  { rewrite Q, <- Qmult_assoc, <- p10_plus. replace (p + - p)%Z with 0%Z by lia. change (10 ^ 0) with 1. ring. }
  destruct (grid n d _ _ S2 U V) as (_ & G & _).
  assert (B : (0 <= round_even n d <= 10 ^ (j + p))%Z).
  { apply round_lt; auto; [lia|]. rewrite Q, p10_plus. apply Qmult_lt_compat_r; [apply p10_pos|auto]. }
  set (k := round_even n d) in *. set (F := Z.to_nat (p + 400)). set (j' := Z.to_nat (j + p + 1)).
  assert (KB : (k < 10 ^ Z.of_nat j')%Z).
  { unfold j'. rewrite Z2Nat.id by lia. rewrite Z.pow_add_r by lia. change (10 ^ 1)%Z with 10%Z.
    assert (0 < 10 ^ (j + p))%Z by (apply Z.pow_pos_nonneg; lia). lia. }
  assert (KF : (k < 10 ^ Z.of_nat F)%Z).
  { eapply Z.lt_le_trans; [exact KB|]. apply Z.pow_le_mono_r; unfold j', F; lia. }
  destruct (udec_ok F k ltac:(lia) ltac:(unfold F; lia)) as (A1 & A2 & A3).
  pose proof (udec_length_le F k j' ltac:(unfold j'; lia) KB ltac:(lia)) as LN.
  assert (HD : k <> 0%Z -> hd 0%Z (udec F k []) <> 48%Z) by (intros; apply udec_head; lia).
  assert (L0 : k = 0%Z -> length (udec F k []) = 1%nat).
  { intros ->. unfold F. destruct (Z.to_nat (p + 400)) eqn:E; [lia|]. reflexivity. }
  set (ds := udec F k []) in *. set (zs := repeat 48%Z (Z.to_nat (p + 1) - length ds)).
  assert (DZ : digits (zs ++ ds)) by (apply Forall_app; split; [apply digits_zeros | auto]).
  assert (LZ : length (zs ++ ds) = Nat.max (Z.to_nat (p + 1)) (length ds)) by (rewrite app_length; unfold zs; rewrite repeat_length; lia).
  set (all := zs ++ ds) in *. set (i := (length all - Z.to_nat p)%nat).
  assert (LI : (1 <= i <= length all)%nat) by (unfold i; lia).
  exists (firstn i all), (skipn i all), k. split; [reflexivity|].
  pose proof DZ as DZ2. rewrite <- (firstn_skipn i all) in DZ2. apply Forall_app in DZ2. destruct DZ2 as [DZ2 DZ3].
  split; [exact DZ2|]. split; [exact DZ3|].
  split; [intros X; apply (f_equal (@length Z)) in X; rewrite firstn_length in X; cbn in X; lia|].
  split; [rewrite skipn_length; unfold i; lia|].
  split; [rewrite firstn_skipn; unfold all; rewrite decimal_app; unfold zs; rewrite decimal_zeros; lia|].
  split; [rewrite firstn_length; unfold i; lia|]. split; [|exact G].
  intros X. rewrite firstn_length. destruct (le_lt_dec (length ds) (Z.to_nat (p + 1))) as [LE|GT]; [unfold i; lia|].
  exfalso. assert (all = ds) as EA by (unfold all, zs; replace (Z.to_nat (p + 1) - length ds)%nat with O by lia; reflexivity).
  assert (k <> 0%Z) by (intros Z0; specialize (L0 Z0); lia). apply HD; auto. rewrite EA in *.
  destruct ds as [|c r]; [cbn in LZ; lia|]. destruct i; [lia|]. cbn in X. cbn. exact X.
Qed.

(** ** toFixed (C59) *)
Definition signed_text (neg : bool) : list Z := if neg then [45%Z] else [].
Lemma finite_text : forall pr x v, double x -> value x = Some v -> exists u : Q, (0 <= fst (magn x))%Z /\ (0 < snd (magn x))%Z /\ q (magn x) == u /\
  v == (if negative x then - u else u) /\ Qabs v == u /\ printf_with pr x = signed_text (negative x) ++ pr (magn x) /\ (u < 10 ^ 400 /\ (0 < u -> 10 ^ (-400) <= u)).
Proof.
  intros pr x v D V. destruct x as [s|s| |s m e]; cbn [value] in V; try discriminate; injection V as <-; cbn [magn negative printf_with double] in *.
  - exists 0. split; [cbn; lia|]. split; [cbn; lia|]. split; [reflexivity|]. split; [destruct s; reflexivity|]. split; [reflexivity|]. split; [reflexivity|].
    split; [reflexivity|]. intros X. exfalso. revert X. apply Qlt_irrefl.
  - exists (q (frac m e)). pose proof (frac_pos m e) as FP. destruct FP as [F1 F2]. split; [lia|]. split; [lia|]. split; [reflexivity|].
    assert (S : inject_Z (if s then Zneg m else Zpos m) * 2 ^ e == (if s then - q (frac m e) else q (frac m e))).
    { destruct s; rewrite frac_q; [|reflexivity]. change (Zneg m) with (- Zpos m)%Z. rewrite inject_Z_opp. ring. }
    split; [exact S|]. pose proof (q_pos (frac m e) (frac_pos m e)).
    split; [rewrite S; destruct s; [rewrite Qabs_opp|]; apply Qabs_pos; lra|]. split; [reflexivity|].
    destruct (frac_range m e D). auto.
Qed.
(** The text of a finite number below 10^j, j + p <= 97: a sign, digits, and a point with exactly p digits
    if p > 0; of all multiples of 10^-p it writes the nearest. *)
Theorem to_fixed_nearest : forall p x v j, double x -> value x = Some v -> (0 <= p)%Z -> (1 <= j)%Z -> Qabs v < 10 ^ j -> (j + p <= 97)%Z ->
  exists i f w, to_fixed p x = (if negative x then [45%Z] else []) ++ i ++ (if (p =? 0)%Z then [] else 46%Z :: f) /\
    digits i /\ i <> [] /\ (hd 0%Z i = 48%Z -> i = [48%Z]) /\ digits f /\ Z.of_nat (length f) = p /\
    writes (to_fixed p x) w /\ (exists k, w == inject_Z k * 10 ^ (- p)) /\
    forall z, Qabs (v - w) <= Qabs (v - inject_Z z * 10 ^ (- p)).
Proof.
  intros p x v j D V Hp Hj HB HJ. destruct (finite_text (print_f p) x v D V) as (u & M1 & M2 & MQ & S & AB & T & UR).
  assert (UB : q (magn x) < 10 ^ j) by (rewrite MQ, <- AB; exact HB).
  destruct (print_f_ok p (magn x) j Hp M1 M2 ltac:(lia) UB) as (i & f & k & P1 & P2 & P3 & P4 & P5 & P6 & P7 & P8 & P9).
  assert (TX : to_fixed p x = signed_text (negative x) ++ i ++ point f).
  { unfold to_fixed. rewrite Z.max_r by lia. rewrite T, P1. apply firstn_all2. rewrite !app_length.
    assert (length (signed_text (negative x)) <= 1)%nat by (destruct (negative x); cbn; lia).
    assert (length (point f) <= length f + 1)%nat by (destruct f; cbn; lia). lia. }
  assert (PF : point f = if (p =? 0)%Z then [] else 46%Z :: f).
  { destruct (Z.eqb_spec p 0) as [E|E]; destruct f; cbn in P5; try reflexivity; lia. }
  assert (MG : exists w0, magnitude (i ++ point f) w0 /\ w0 == inject_Z k * 10 ^ (- p)).
  { destruct f as [|c f'].
    - cbn [point]. exists (inject_Z (decimal i) * 10 ^ 0). split; [apply (mg_int i [] 0); auto; constructor|].
      rewrite app_nil_r in P6. rewrite P6. cbn in P5. replace (- p)%Z with 0%Z by lia. reflexivity.
    - cbn [point]. exists (inject_Z (decimal (i ++ c :: f')) * 10 ^ (0 - Z.of_nat (length (c :: f')))). split.
      + pose proof (mg_frac i (c :: f') [] 0 P2 P3) as X. rewrite app_nil_r in X. apply X; [|constructor]. destruct i; [congruence|discriminate].
      + rewrite P6, P5. replace (0 - p)%Z with (- p)%Z by lia. reflexivity. }
  destruct MG as (w0 & W1 & W2).
  exists i, f, (if negative x then - w0 else w0). split; [rewrite TX, PF; reflexivity|].
  split; [auto|]. split; [auto|].
  split. { intros X. specialize (P8 X). destruct i as [|c [|c' i']]; [congruence | cbn [hd] in X; congruence | cbn [length] in P8; lia]. }
  split; [auto|]. split; [auto|]. split; [rewrite TX; destruct (negative x); cbn; [apply wr_minus | apply wr_plain]; auto|].
  split; [exists (if negative x then - k else k)%Z; destruct (negative x); rewrite W2; [rewrite inject_Z_opp; ring | reflexivity]|].
  intros z. destruct (negative x).
  - specialize (P9 (- z)%Z). rewrite MQ in P9. rewrite S, W2. rewrite inject_Z_opp in P9.
    rewrite <- (Qabs_opp (- u - _)), <- (Qabs_opp (- u - inject_Z z * _)).
    setoid_replace (- (- u - - (inject_Z k * 10 ^ (- p)))) with (u - inject_Z k * 10 ^ (- p)) by ring.
    setoid_replace (- (- u - inject_Z z * 10 ^ (- p))) with (u - - inject_Z z * 10 ^ (- p)) by ring. exact P9.
  - rewrite S, W2. specialize (P9 z). rewrite MQ in P9. exact P9.
Qed.
Lemma to_fixed_meets : to_fixed 2 (S754_finite true 5066549580791808 (-52)) = [45; 49; 46; 49; 50]%Z /\ to_fixed 0 (S754_finite false 4503599627370496 (-53)) = [48%Z].
Proof. split; vm_compute; reflexivity. Qed.

(** ** toExponential (C59) *)
(** One digit, not zero unless the number is, a point with exactly p digits if p > 0, and an exponent: of all
    decimal numbers with p + 1 digits it writes the nearest. *)
Theorem to_exponential_nearest : forall p x v, double x -> value x = Some v -> (0 <= p <= 90)%Z ->
  exists c f ex y w, to_exponential p x = (if negative x then [45%Z] else []) ++ [c] ++ (if (p =? 0)%Z then [] else 46%Z :: f) ++ ex /\
    (48 <= c <= 57)%Z /\ (c = 48%Z -> v == 0) /\ digits f /\ Z.of_nat (length f) = p /\ exponent_text ex y /\ ex <> [] /\
    writes (to_exponential p x) w /\ forall w', sig_digits (p + 1) w' -> Qabs (v - w) <= Qabs (v - w').
Proof.
  intros p x v D V Hp. destruct (finite_text (print_e p) x v D V) as (u & M1 & M2 & MQ & S & AB & T & UR & LR).
  assert (Z0 : (fst (magn x) = 0)%Z <-> u == 0).
  { destruct (magn x) as [n d]. cbn [fst snd] in *. split; intros E.
    - subst n. rewrite <- MQ. apply q_cross; cbn [fst snd]; [auto | change (inject_Z 0) with 0; ring].
    - assert (X : inject_Z n == inject_Z 0) by (rewrite <- (q_mul n d M2), MQ, E; change (inject_Z 0) with 0; ring). unfold Qeq in X. cbn in X. lia. }
  assert (KEY : exists (y k : Z) (zs : list Z), print_e p (magn x) = match zs ++ udec (Z.to_nat (p + 1)) k [] with [] => [] | c :: r => c :: point r ++ exponent y end /\
    digits zs /\ decimal (zs ++ udec (Z.to_nat (p + 1)) k []) = k /\ Z.of_nat (length (zs ++ udec (Z.to_nat (p + 1)) k [])) = (p + 1)%Z /\ digits (zs ++ udec (Z.to_nat (p + 1)) k []) /\ (Z.abs y < 402)%Z /\
    (hd 0%Z (zs ++ udec (Z.to_nat (p + 1)) k []) = 48%Z -> u == 0) /\
    forall w', sig_digits (p + 1) w' -> Qabs (u - inject_Z k * 10 ^ (y - p)) <= Qabs (u - w')).
  { unfold print_e. destruct (Z.eqb_spec (fst (magn x)) 0) as [E|E].
    - exists 0%Z, 0%Z, (repeat 48%Z (Z.to_nat (p + 1) - length (udec (Z.to_nat (p + 1)) 0 []))). split; [reflexivity|].
      assert (UD : udec (Z.to_nat (p + 1)) 0 [] = [48%Z]) by (destruct (Z.to_nat (p + 1)) eqn:X; [lia | reflexivity]). rewrite UD. cbn [length].
      split; [apply digits_zeros|]. split; [rewrite decimal_app, decimal_zeros; reflexivity|]. split; [rewrite app_length, repeat_length; cbn; lia|].
      split; [apply Forall_app; split; [apply digits_zeros | repeat constructor; lia]|]. split; [lia|]. split; [tauto|].
      intros w' _. apply Z0 in E. rewrite E. change (inject_Z 0) with 0. rewrite Qmult_0_l. setoid_replace (0 - 0) with 0 by ring. change (Qabs 0) with 0. apply Qabs_nonneg.
    - assert (PS : pos (magn x)) by (split; lia). destruct (sig (p + 1) (magn x)) as [y k] eqn:ES.
      assert (UP : 0 < u) by (rewrite <- MQ; apply q_pos; auto).
      rewrite <- MQ in UR, LR, UP. specialize (LR UP).
      destruct (sig_ok (p + 1) _ y k ltac:(lia) PS LR UR ES) as (X & LG & HX & Hk & _ & _).
      assert (XB : (-401 < X < 400)%Z).
      { split.
        - assert (-400 < X + 1)%Z; [|lia]. apply (pw_lt_inv 10); [lia|]. change (inject_Z 10) with 10. lra.
        - apply (pw_lt_inv 10); [lia|]. change (inject_Z 10) with 10. lra. }
      assert (PW : (0 < 10 ^ (p + 1 - 1))%Z) by (apply Z.pow_pos_nonneg; lia).
      exists y, k, []. cbn [app]. assert (LN : length (udec (Z.to_nat (p + 1)) k []) = Z.to_nat (p + 1)).
      { replace (Z.to_nat (p + 1)) with (Datatypes.S (Z.to_nat p)) at 2 by lia. apply udec_length; [lia|].
        rewrite Nat2Z.inj_succ, Z2Nat.id by lia. replace (p + 1 - 1)%Z with p in Hk by lia. unfold Z.succ. exact Hk. }
      destruct (udec_ok (Z.to_nat (p + 1)) k) as (A & B & C); [rewrite Z2Nat.id by lia; lia | lia|].
      split; [rewrite LN, Nat.sub_diag; reflexivity|]. split; [constructor|]. split; [auto|]. split; [rewrite LN, Z2Nat.id; lia|]. split; [auto|]. split; [lia|].
      split; [intros X1; exfalso; revert X1; apply udec_head; rewrite Z2Nat.id by lia; lia|].
      intros w' Hw'. pose proof (sig_best (p + 1) _ y k w' ltac:(lia) PS LR UR ES Hw') as SB. rewrite MQ in SB. replace (y - (p + 1) + 1)%Z with (y - p)%Z in SB by lia. exact SB. }
  destruct KEY as (y & k & zs & PE & DZ & DK & LK & DD & YB & HK & BEST).
  set (ds := zs ++ udec (Z.to_nat (p + 1)) k []) in *. destruct ds as [|c f] eqn:ED; [cbn in LK; lia|].
  pose proof (Forall_inv DD) as Dc. cbv beta in Dc. pose proof (Forall_inv_tail DD) as Df. cbn [length] in LK. cbn [hd] in HK.
  assert (LE : (length (exponent y) <= 6)%nat).
  { unfold exponent. cbn [length]. rewrite app_length. assert (length (udec 20 (Z.abs y) []) <= 3)%nat by (apply udec_length_le; cbn; lia).
    destruct (Z.ltb_spec (Z.abs y) 10); cbn [length]; [|lia].
    assert (length (udec 20 (Z.abs y) []) <= 1)%nat by (apply udec_length_le; cbn; lia). lia. }
  assert (TX : to_exponential p x = signed_text (negative x) ++ c :: point f ++ exponent y).
  { unfold to_exponential. rewrite Z.max_r by lia. rewrite T, PE. apply firstn_all2. rewrite app_length. cbn [length]. rewrite app_length.
    assert (length (signed_text (negative x)) <= 1)%nat by (destruct (negative x); cbn; lia).
    assert (length (point f) <= length f + 1)%nat by (destruct f; cbn; lia). lia. }
  assert (EX : exponent_text (exponent y) y) by (apply exponent_ok; change (10 ^ 19)%Z with 10000000000000000000%Z; lia).
  assert (PF : point f = if (p =? 0)%Z then [] else 46%Z :: f).
  { destruct (Z.eqb_spec p 0) as [E|E]; destruct f; cbn [length] in LK; try reflexivity; lia. }
  assert (MG : exists w0, magnitude (c :: point f ++ exponent y) w0 /\ w0 == inject_Z k * 10 ^ (y - p)).
  { destruct f as [|c' f'].
    - cbn [point app]. exists (inject_Z (decimal [c]) * 10 ^ y). split; [apply (mg_int [c] (exponent y) y); auto; discriminate|].
      rewrite DK. cbn in LK. replace (y - p)%Z with y by lia. reflexivity.
    - cbn [point]. exists (inject_Z (decimal ([c] ++ c' :: f')) * 10 ^ (y - Z.of_nat (length (c' :: f')))). split.
      + apply (mg_frac [c] (c' :: f') (exponent y) y); auto; [repeat constructor; lia | discriminate].
      + cbn [app]. rewrite DK. replace (Z.of_nat (length (c' :: f'))) with p by (cbn [length] in *; lia). reflexivity. }
  destruct MG as (w0 & W1 & W2).
  exists c, f, (exponent y), y, (if negative x then - w0 else w0).
  split; [rewrite TX, PF; reflexivity|]. split; [auto|].
  split; [intros E; specialize (HK E); rewrite S; destruct (negative x); lra|].
  split; [auto|]. split; [lia|]. split; [auto|]. split; [discriminate|].
  split; [rewrite TX; destruct (negative x); cbn [signed_text app]; [apply wr_minus | apply wr_plain]; auto|].
  intros w' Hw'. destruct (negative x).
  - specialize (BEST (- w') (sig_abs _ w' (- w') Hw' (or_intror (Qeq_refl _)))). rewrite S, W2.
    rewrite <- (Qabs_opp (- u - _)), <- (Qabs_opp (- u - w')).
    setoid_replace (- (- u - - (inject_Z k * 10 ^ (y - p)))) with (u - inject_Z k * 10 ^ (y - p)) by ring.
    setoid_replace (- (- u - w')) with (u - - w') by ring. exact BEST.
  - rewrite S, W2. apply BEST; auto.
Qed.
Lemma to_exponential_meets : to_exponential 2 (S754_finite false 5429704475340800 (-42)) = [49; 46; 50; 51; 101; 43; 48; 51]%Z /\
  to_exponential 1 (S754_zero false) = [48; 46; 48; 101; 43; 48; 48]%Z.
Proof. split; vm_compute; reflexivity. Qed.

(** ** What does not hold (C59) *)
(** toPrecision(3) of 12345 gives 1234: the digits of %.3f cut off, not the number rounded to 3 digits; and
    of 0.000123456, 0.00. *)
Theorem to_precision_refuted : exists x v y v', double x /\ value x = Some v /\ v == 12345 /\ to_precision 3 x = Some [49; 50; 51; 52]%Z /\
  double y /\ value y = Some v' /\ (123 # 1000000) < v' /\ to_precision 3 y = Some [48; 46; 48; 48]%Z.
Proof.
  exists (S754_finite false 6786735522447360 (-39)). eexists. exists (S754_finite false 4554722472727773 (-65)). eexists.
  split; [left; lia|]. split; [reflexivity|]. split; [reflexivity|]. split; [vm_compute; reflexivity|].
  split; [left; lia|]. split; [reflexivity|]. split; [reflexivity|]. vm_compute. reflexivity.
Qed.
(** Text beyond 100 characters is lost: 1.5e99.toFixed(2) has 100 digits and no point. *)
Theorem to_fixed_long_refuted : exists x s r, strtod [49; 46; 53; 101; 57; 57]%Z = Some (x, []) /\ to_fixed 2 x = s /\ length s = 100%nat /\ digits s /\
  printf_with (print_f 2) x = s ++ r /\ r = [46; 48; 48]%Z.
Proof.
  pose (x := S754_finite false 6177069107361635 (277)). exists x, (to_fixed 2 x), [46; 48; 48]%Z.
  split; [vm_compute; reflexivity|]. split; [reflexivity|]. split; [vm_compute; reflexivity|].
  split; [vm_compute; repeat (constructor; [split; discriminate|]); constructor|].
  split; [vm_compute; reflexivity|reflexivity].
Qed.
