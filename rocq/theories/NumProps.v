(** Numbers as text and text as numbers *)
From Coq Require Import ZArith QArith Qpower Qabs Qround List Lia Lqa Bool SpecFloat.
From Verif Require Import UtfModel Bits NumModel NumSpec NumProofs NumProofs2 NumProofs3 NumProofs4 NumProofs5.
Import ListNotations.
Local Open Scope Q_scope.

Lemma blanks_sspace : forall sp, blanks sp -> Forall (fun c => sspace c = true) sp.
Proof.
  intros sp. apply Forall_impl. intros c H. cbn in H. unfold sspace.
  repeat (destruct H as [<-|H]; [reflexivity|]). contradiction.
Qed.

(** ** Reading (C58) *)
(** Text that writes a number is read as the nearest double, whatever blanks come before and whatever
    follows; from max_finite on it is read as infinity. *)
Theorem read_nearest : forall sp s v r, blanks sp -> writes s v -> stop r ->
  exists x, strtod (sp ++ s ++ r) = Some (x, r) /\
    (Qabs v < max_finite -> nearest x v) /\
    (max_finite <= v -> x = S754_infinity false) /\ (v <= - max_finite -> x = S754_infinity true).
Proof.
  intros sp s v r Hsp W Hr. destruct (strtod_reads sp s v r (blanks_sspace sp Hsp) W Hr) as (neg & n & d & A1 & A2 & A3 & A4).
  exists (to_double neg n d). split; [exact A4|]. destruct (to_double_ok neg n d A1 A2) as [B1 B2].
  assert (P : 0 <= q (n, d)).
  { assert (X := inj_le' 0 n A1). assert (Y := inj_pos d A2). rewrite <- (q_mul n d A2) in X. change (inject_Z 0) with 0 in X.
    destruct (Qlt_le_dec (q (n, d)) 0) as [N|]; [|auto]. exfalso.
    assert (Z1 : q (n, d) * inject_Z d < 0 * inject_Z d) by (apply Qmult_lt_compat_r; auto). lra. }
  assert (AB : Qabs v == q (n, d)).
  { rewrite A3. destruct neg; [rewrite Qabs_opp|]; apply Qabs_pos; auto. }
  assert (MP : 0 < max_finite) by reflexivity.
  split; [|split].
  - intros H. rewrite AB in H. eapply nearest_proper; [|apply B1; exact H]. rewrite A3. destruct neg; reflexivity.
  - intros H. destruct neg; [exfalso; lra|]. apply B2. lra.
  - intros H. destruct neg; [|exfalso; lra]. apply B2. lra.
Qed.
(** Two ways to write one number, not zero, are read as one double. *)
Theorem read_same : forall s t v w, writes s v -> writes t w -> v == w -> ~ v == 0 -> exists x, strtod s = Some (x, []) /\ strtod t = Some (x, []).
Proof.
  intros s t v w Ws Wt E NZ.
  destruct (strtod_reads [] s v [] (Forall_nil _) Ws Logic.I) as (neg & n & d & A1 & A2 & A3 & A4).
  destruct (strtod_reads [] t w [] (Forall_nil _) Wt Logic.I) as (neg' & n' & d' & B1 & B2 & B3 & B4).
  rewrite !app_nil_r in *. cbn [app] in *. exists (to_double neg n d). split; [exact A4|]. rewrite B4.
  assert (P : forall n d, (0 <= n)%Z -> (0 < d)%Z -> 0 <= q (n, d)).
  { clear. intros n d A1 A2. assert (X := inj_le' 0 n A1). assert (Y := inj_pos d A2). rewrite <- (q_mul n d A2) in X. change (inject_Z 0) with 0 in X.
    destruct (Qlt_le_dec (q (n, d)) 0) as [N|]; [|auto]. exfalso.
    assert (Z1 : q (n, d) * inject_Z d < 0 * inject_Z d) by (apply Qmult_lt_compat_r; auto). lra. }
  pose proof (P n d A1 A2). pose proof (P n' d' B1 B2).
  rewrite E in NZ. rewrite B3 in *. clear P.
  assert (NZ' : ~ q (n', d') == 0) by (intro X; apply NZ; destruct neg'; rewrite X; reflexivity).
  assert (S0 : neg' = neg). { destruct neg, neg'; auto; exfalso; apply NZ'; lra. }
  subst neg'. rewrite (to_double_q neg n' d' n d); auto. destruct neg; lra.
Qed.
Lemma body_indep : forall neg a b s x, b <> [] -> strtod_body neg a s = Some (x, []) -> a <> [] -> strtod_body neg b s = Some (x, []).
Proof.
  intros neg a b s x Hb H Ha. unfold strtod_body in *. cbv zeta in *.
  match type of H with context [if ?c then None else _] => destruct c end; [discriminate|].
  destruct (span s) as [i r]. destruct (match r with [] => _ | _ => _ end) as [f r']. destruct (i ++ f); [congruence|].
  destruct (read_exp r') as [y r'']. destruct (scale 10 _ _). exact H.
Qed.
(** Number() of text that writes a number, blanks before it allowed, is that number; with anything after
    it, not a number. *)
Theorem number_of_string : forall sp s v r, blanks sp -> writes s v -> stop r ->
  exists x, strtod s = Some (x, []) /\ string_to_num (sp ++ s ++ r) = Some (match r with [] => x | _ => S754_nan end).
Proof.
  intros sp s v r Hsp W Hr. destruct (strtod_reads sp s v r (blanks_sspace sp Hsp) W Hr) as (neg & n & d & A1 & A2 & A3 & A4).
  destruct (strtod_reads [] s v [] (Forall_nil _) W Logic.I) as (neg' & n' & d' & B1 & B2 & B3 & B4). cbn [app] in B4. rewrite app_nil_r in B4.
  exists (to_double neg' n' d'). split; [exact B4|].
  unfold string_to_num. rewrite A4. destruct r as [|c r]; [|reflexivity]. rewrite app_nil_r in A4.
  assert (NE : s <> []).
  { intros ->. remember [] as nl eqn:EN. destruct W as [s v M|s v M|s v M]; try discriminate. subst s. destruct (magnitude_first _ _ M) as (c & t & X & _). discriminate. }
  assert (NE' : sp ++ s <> []) by (intros X; apply app_eq_nil in X; tauto).
  unfold strtod in A4, B4. rewrite skip_sp_app in A4 by (apply blanks_sspace; auto).
  destruct (match skip_sp s with [] => (false, skip_sp s) | _ => _ end) as [g t].
  pose proof (body_indep g s (sp ++ s) t _ NE' B4 NE) as X. unfold strtod_body in X. cbv zeta in *. rewrite A4 in X. injection X as ->. reflexivity.
Qed.

(** ** Printing (C58) *)
Lemma udec_head : forall f n, (0 < n < 10 ^ Z.of_nat f)%Z -> hd 0%Z (udec f n []) <> 48%Z.
Proof.
  induction f as [|f IH]; intros n Hn; [change (10 ^ Z.of_nat 0)%Z with 1%Z in Hn; lia|]. cbn [udec].
  pose proof (Z.div_mod n 10 ltac:(lia)) as D. pose proof (Z.mod_pos_bound n 10 ltac:(lia)) as B.
  destruct (Z.eqb_spec (n / 10) 0) as [Q|Q]; [cbn [hd]; lia|].
  rewrite udec_app. rewrite Nat2Z.inj_succ, Z.pow_succ_r in Hn by lia.
  assert (N1 : (0 < n / 10 < 10 ^ Z.of_nat f)%Z) by (split; [lia | apply Z.div_lt_upper_bound; lia]).
  specialize (IH _ N1). destruct f as [|f]; [change (10 ^ Z.of_nat 0)%Z with 1%Z in N1; lia|].
  destruct (udec_ok (S f) (n / 10) ltac:(lia) ltac:(lia)) as (_ & _ & NE). destruct (udec (S f) (n / 10) []); [congruence | exact IH].
Qed.
Lemma value_integer : forall s m e z, double (S754_finite s m e) -> inject_Z (if s then Zneg m else Zpos m) * 2 ^ e == inject_Z z -> (- 2 ^ 63 <= z < 2 ^ 63)%Z ->
  is_normal (S754_finite s m e) = true /\ is_integer (S754_finite s m e) = true /\ to_wide (S754_finite s m e) = z.
Proof.
  intros s m e z D E Hz. cbn [double] in D.
  assert (SG : inject_Z (Zpos m) * 2 ^ e == inject_Z (if s then - z else z)).
  { destruct s; [|exact E]. rewrite inject_Z_opp, <- E. change (Zneg m) with (- Zpos m)%Z. rewrite inject_Z_opp. ring. }
  assert (NRM : is_normal (S754_finite s m e) = true).
  { cbn [is_normal is_subnormal]. destruct (Z.ltb_spec (Zpos m) (2 ^ 52)) as [L|]; [|reflexivity]. exfalso.
    assert (e = -1074)%Z as -> by (destruct D; lia). set (zz := if s then (- z)%Z else z) in *. assert (U := p2_pos (-1074)).
    assert (P1 : 0 < inject_Z (Zpos m)) by (apply inj_pos; lia).
    assert (P2 : 0 < inject_Z zz) by (rewrite <- SG; apply Qmult_lt_0_compat; auto).
    assert (P3 : inject_Z zz < inject_Z 1).
    { rewrite <- SG. apply inj_lt' in L. rewrite p2_Z in L by lia.
      assert (X : inject_Z (Zpos m) * 2 ^ (-1074) < 2 ^ 52 * 2 ^ (-1074)) by (apply Qmult_lt_compat_r; auto).
      rewrite <- p2_plus in X. eapply Qlt_trans; [exact X|]. reflexivity. }
    change 0 with (inject_Z 0) in P2. apply inj_lt_inv in P2, P3. lia. }
  split; [exact NRM|].
  rewrite <- frac_q in SG. unfold is_integer. rewrite NRM. unfold to_wide. pose proof (frac_pos m e) as [F1 F2].
  destruct (frac m e) as [n d]. cbn [fst snd] in *.
  assert (ND : n = ((if s then - z else z) * d)%Z).
  { assert (Y : inject_Z n == inject_Z ((if s then - z else z) * d)) by (rewrite inject_Z_mult, <- SG; symmetry; apply q_mul; auto).
    unfold Qeq in Y. cbn in Y. lia. }
  assert (V : (if s then - (n / d) else n / d)%Z = z).
  { rewrite ND, Z.div_mul by lia. destruct s; lia. }
  rewrite V. destruct (Z.leb_spec (- 2 ^ 63) z); [|lia]. destruct (Z.ltb_spec z (2 ^ 63)); [|lia]. cbn [andb]. split; [|reflexivity].
  apply Z.eqb_eq. rewrite ND. destruct s; lia.
Qed.
(** An integer (-2^63 <= z < 2^63) prints its digits, all of them, whatever the precision. *)
Theorem integer_text_exact : forall dp x n z, double x -> value x = Some n -> n == inject_Z z -> (- 2 ^ 63 <= z < 2 ^ 63)%Z ->
  exists ds, num_to_string dp x = (if (z <? 0)%Z then [45%Z] else []) ++ ds /\ num_to_json dp x = num_to_string dp x /\
    digits ds /\ decimal ds = Z.abs z /\ ds <> [] /\ (hd 0%Z ds = 48%Z -> ds = [48%Z]).
Proof.
  intros dp x n z D V E Hz.
  assert (IT : is_normal x = true /\ is_integer x = true /\ to_wide x = z).
  { destruct x as [s|s| |s m e]; cbn [value] in V; try discriminate; injection V as <-.
    - split; [reflexivity|]. split; [reflexivity|]. cbn [to_wide]. unfold Qeq in E. cbn in E. lia.
    - apply value_integer; auto. }
  destruct IT as (NR & IT & TW). exists (udec 20 (Z.abs z) []).
  assert (T : num_to_string dp x = itoa10 z) by (unfold num_to_string; rewrite IT, TW; reflexivity).
  assert (J : num_to_json dp x = itoa10 z) by (unfold num_to_json; rewrite NR, IT, TW; reflexivity).
  change (2 ^ 63)%Z with 9223372036854775808%Z in Hz.
  destruct (udec_ok 20 (Z.abs z)) as (A & B & C); [change (10 ^ Z.of_nat 20)%Z with 100000000000000000000%Z; lia | lia|].
  rewrite T, J. unfold itoa10. split; [destruct (Z.ltb_spec z 0); cbn [app]; f_equal; f_equal; lia|].
  split; [reflexivity|]. split; [exact B|]. split; [exact A|]. split; [exact C|].
  intros H. destruct (Z.eq_dec z 0) as [->|NZ]; [reflexivity|]. exfalso. revert H. apply udec_head.
  change (10 ^ Z.of_nat 20)%Z with 100000000000000000000%Z. lia.
Qed.
(** Any other normal number prints a decimal with at most p significant digits, and no decimal with p
    digits is nearer. *)
Theorem number_text_nearest : forall dp x v, double x -> value x = Some v -> is_normal x = true -> is_integer x = false ->
  exists w, writes (num_to_string dp x) w /\ num_to_json dp x = num_to_string dp x /\ sig_digits (dtoa_prec dp) w /\
    forall w', sig_digits (dtoa_prec dp) w' -> Qabs (v - w) <= Qabs (v - w').
Proof.
  intros dp x v D V NR NI. unfold num_to_string, num_to_json. rewrite NR, NI. cbn [negb].
  destruct x as [s|s| |s m e]; cbn [value] in V; try discriminate; injection V as <-. cbn [dtoa].
  assert (PP : (1 <= dtoa_prec dp)%Z).
  { unfold dtoa_prec. cbv zeta. destruct (Z.leb_spec (if (dp - 1 <=? 0)%Z then 17 + (dp - 1) else dp - 1) 0); lia. }
  destruct (print_double (dtoa_prec dp) m e PP D) as (w & X & k & y & W1 & W2 & Hk & _ & _ & _ & BEST).
  assert (SD : sig_digits (dtoa_prec dp) w) by (exists k, (y - dtoa_prec dp + 1)%Z; split; [lia | exact W2]).
  destruct s; cbn [app].
  - exists (- w). split; [apply wr_minus; auto|]. split; [reflexivity|]. split.
    { destruct SD as (k' & j & A & B). exists (- k')%Z, j. split; [lia|]. rewrite B, inject_Z_opp. ring. }
    intros w' (k' & j & A & B). assert (SD' : sig_digits (dtoa_prec dp) (- w')) by (exists (- k')%Z, j; split; [lia|]; rewrite B, inject_Z_opp; ring).
    specialize (BEST _ SD'). change (Zneg m) with (- Zpos m)%Z. rewrite inject_Z_opp.
    rewrite <- (Qabs_opp (- inject_Z (Zpos m) * 2 ^ e - - w)), <- (Qabs_opp (- inject_Z (Zpos m) * 2 ^ e - w')).
    setoid_replace (- (- inject_Z (Zpos m) * 2 ^ e - - w)) with (inject_Z (Zpos m) * 2 ^ e - w) by ring.
    setoid_replace (- (- inject_Z (Zpos m) * 2 ^ e - w')) with (inject_Z (Zpos m) * 2 ^ e - - w') by ring. exact BEST.
  - exists w. split; [apply wr_plain; auto|]. auto.
Qed.
(** The precision: dblPrec-1 digits; 0 and 1 mean 16 and 17 *)
Theorem precision_digits : (forall dp, 1 < dp -> dtoa_prec dp = dp - 1)%Z /\ dtoa_prec 1 = 17%Z /\ dtoa_prec 0 = 16%Z /\ dtoa_prec default_dblPrec = 15%Z.
Proof.
  split; [|split; [|split]; reflexivity]. intros dp H. unfold dtoa_prec. cbv zeta. destruct (Z.leb_spec (dp - 1) 0); [lia|]. destruct (Z.leb_spec (dp - 1) 0); lia.
Qed.

(** ** Round trips (C58) *)
(** With 17 digits every normal number but -0 is read back as itself; an integer below 2^63 with any. *)
Theorem number_round_trip : forall dp x r, double x -> is_normal x = true -> x <> S754_zero true ->
  (17 <= dtoa_prec dp)%Z \/ is_integer x = true -> stop r ->
  strtod (num_to_string dp x ++ r) = Some (x, r) /\ strtod (num_to_json dp x ++ r) = Some (x, r).
Proof.
  intros dp x r D NR NZ HP Hr.
  assert (G : strtod (num_to_string dp x ++ r) = Some (x, r)).
  { unfold num_to_string. rewrite NR. destruct (is_integer x) eqn:IT.
    - destruct x as [s|s| |s m e]; try discriminate.
      + destruct s; [congruence|]. cbn [to_wide]. change (itoa10 0) with [48%Z]. cbn [app].
        destruct (strtod_reads [] [48%Z] (inject_Z (decimal [48%Z]) * 10 ^ 0) r (Forall_nil _)) as (neg & n & d & A1 & A2 & A3 & A4); [|exact Hr|].
        { apply wr_plain. change [48%Z] with ([48%Z] ++ []). apply (mg_int [48%Z] [] 0); [repeat constructor; lia | discriminate | constructor]. }
        cbn [app] in A4. unfold strtod in *. cbn [skip_sp] in *. change (sspace 48) with false in *. cbv iota in *.
        change (48 =? 45)%Z with false in *. change (48 =? 43)%Z with false in *. cbv iota in *.
        destruct r as [|c r]; [reflexivity|]. destruct Hr as [Hr1 Hr2].
        assert (C : (c =? 120)%Z = false /\ (c =? 88)%Z = false /\ digit c = false /\ (c =? 46)%Z = false /\ (c =? 101)%Z = false /\ (c =? 69)%Z = false).
        { cbn [In] in Hr2. repeat split; try (apply Z.eqb_neq; intros ->; apply Hr2; tauto).
          destruct (digit c) eqn:DC; [|reflexivity]. apply digit_iff in DC. contradiction. }
        destruct C as (C1 & C2 & C3 & C4 & C5 & C6). cbn [at_ nth]. unfold at_ in *. cbn [nth] in *. rewrite C1, C2 in *. cbn [orb andb] in *.
        change (48 =? 105)%Z with false in *. change (48 =? 73)%Z with false in *. change (48 =? 110)%Z with false in *. change (48 =? 78)%Z with false in *. cbn [orb andb] in *.
        cbn [span] in *. change (digit 48) with true in *. cbv iota in *. rewrite C3 in *. cbv iota in *. rewrite C4 in *. cbn [app] in *.
        cbn [read_exp] in *. rewrite C5, C6 in *. cbn [orb] in *. reflexivity.
      + apply integer_read; auto.
    - destruct HP as [HP|HP]; [|discriminate]. destruct x as [s|s| |s m e]; try discriminate. cbn [dtoa]. rewrite <- app_assoc.
      apply dtoa_read; auto. }
  split; [exact G|]. unfold num_to_json, num_to_string in *. rewrite NR in *. cbn [negb]. exact G.
Qed.
Lemma sig_abs : forall p w u, sig_digits p w -> u == w \/ u == - w -> sig_digits p u.
Proof.
  intros p w u (k & j & A & B) [E|E]; [exists k, j | exists (- k)%Z, j]; (split; [lia|]); rewrite E, B; [reflexivity|]. rewrite inject_Z_opp. ring.
Qed.
Lemma sig_mono : forall p p' w, (0 <= p <= p')%Z -> sig_digits p w -> sig_digits p' w.
Proof.
  intros p p' w H (k & j & A & B). exists k, j. split; [|exact B]. eapply Z.lt_le_trans; [exact A|]. apply Z.pow_le_mono_r; lia.
Qed.
(** A decimal number with at most p digits, p up to 15, read and printed with p digits: the text can be
    read back as the same double and, if the number is below 2^53 or the double is not an integer, writes
    the decimal number one started with. *)
Theorem digits_survive : forall dp s w, writes s w -> (dtoa_prec dp <= 15)%Z -> sig_digits (dtoa_prec dp) w -> min_normal <= Qabs w -> Qabs w < max_finite ->
  exists x, strtod s = Some (x, []) /\ double x /\ is_normal x = true /\ (forall r, stop r -> strtod (num_to_string dp x ++ r) = Some (x, r)) /\
    (Qabs w < 2 ^ 53 \/ is_integer x = false -> exists w', writes (num_to_string dp x) w' /\ w' == w).
Proof.
  intros dp s w W Hp SD Hlo Hhi.
  destruct (strtod_reads [] s w [] (Forall_nil _) W Logic.I) as (neg & n & d & A1 & A2 & A3 & A4). cbn [app] in A4. rewrite app_nil_r in A4.
  assert (PP : (1 <= dtoa_prec dp)%Z).
  { unfold dtoa_prec. cbv zeta. destruct (Z.leb_spec (if (dp - 1 <=? 0)%Z then 17 + (dp - 1) else dp - 1) 0); lia. }
  set (p := dtoa_prec dp) in *.
  assert (P : 0 <= q (n, d)).
  { assert (X := inj_le' 0 n A1). assert (Y := inj_pos d A2). rewrite <- (q_mul n d A2) in X. change (inject_Z 0) with 0 in X.
    destruct (Qlt_le_dec (q (n, d)) 0) as [N|]; [|auto]. exfalso.
    assert (Z1 : q (n, d) * inject_Z d < 0 * inject_Z d) by (apply Qmult_lt_compat_r; auto). lra. }
  assert (AB : Qabs w == q (n, d)). { rewrite A3. destruct neg; [rewrite Qabs_opp|]; apply Qabs_pos; auto. }
  rewrite AB in *. set (u := q (n, d)) in *.
  assert (MN : 0 < min_normal) by reflexivity.
  assert (UP : 0 < u) by lra. assert (NP : (0 < n)%Z) by (apply (q_pos_inv n d); auto).
  assert (SU : sig_digits p u) by (apply (sig_abs p w); [auto|]; destruct neg; [right; lra | left; lra]).
  assert (SU15 : sig_digits 15 u) by (apply (sig_mono p 15); [lia|auto]).
  destruct (to_double_rel n d NP A2 Hlo Hhi neg) as (m & e & T & Hm & M & R). fold u in R. rewrite T in A4.
  exists (S754_finite neg m e). split; [exact A4|]. split; [exact M|].
  assert (NR : is_normal (S754_finite neg m e) = true) by (unfold is_normal, is_subnormal; destruct (Z.ltb_spec (Zpos m) (2 ^ 52)); [lia | reflexivity]).
  split; [exact NR|].
  set (Q0 := inject_Z (Zpos m) * 2 ^ e) in *.
  assert (Q0P : 0 < Q0) by (unfold Q0; apply Qmult_lt_0_compat; [apply inj_pos; lia | apply p2_pos]).
  destruct (is_integer (S754_finite neg m e)) eqn:IT.
  - split.
    { intros r Hr. apply (number_round_trip dp (S754_finite neg m e) r M NR ltac:(discriminate) (or_intror IT) Hr). }
    intros [B|B]; [|discriminate]. rewrite AB in B. unfold num_to_string. rewrite IT. destruct (integer_text neg m e IT) as (z & Hz & EZ & ->). fold Q0 in EZ.
    assert (UE : u == inject_Z z).
    { apply sig_integer; auto; rewrite (Qabs_pos u) by lra; [exact B|]. rewrite <- EZ. exact R. }
    assert (UD : magnitude (udec 20 z []) (inject_Z z * 10 ^ 0)).
    { apply udec20. change (2 ^ 63)%Z with 9223372036854775808%Z in Hz. change (10 ^ 20)%Z with 100000000000000000000%Z. lia. }
    change (10 ^ 0) with 1 in UD. destruct neg; cbn [app].
    + eexists. split; [apply wr_minus; exact UD|]. rewrite A3, UE. ring.
    + eexists. split; [apply wr_plain; exact UD|]. rewrite A3, UE. ring.
  - destruct (print_double p m e PP M) as (w0 & X & k & y & W1 & W2 & Hk & _ & _ & _ & BEST). fold Q0 in BEST.
    assert (W0P : 0 < w0) by (rewrite W2; apply Qmult_lt_0_compat; [apply inj_pos; lia | apply p10_pos]).
    assert (SW : sig_digits 15 w0) by (apply (sig_mono p 15); [lia|]; exists k, (y - p + 1)%Z; split; [lia | exact W2]).
    pose proof (BEST u SU) as B0. rewrite Qabs_Qminus in R.
    assert (UE : u == w0).
    { assert (R2 : Qabs (u - w0) <= 2 ^ (-52) * u).
      { apply Qabs_Qle_condition in R. assert (B1 : Qabs (Q0 - w0) <= 2 ^ (-53) * u) by (eapply Qle_trans; [exact B0|]; apply Qabs_Qle_condition; exact R).
        apply Qabs_Qle_condition in B1. apply Qabs_Qle_condition.
        change (2 ^ (-52)) with (1 # 4503599627370496). change (2 ^ (-53)) with (1 # 9007199254740992) in *. lra. }
      apply sig_near; auto; (eapply Qle_trans; [exact R2|]); rewrite Qabs_pos by lra;
        apply Qabs_Qle_condition in R2; change (2 ^ (-52)) with (1 # 4503599627370496) in *; change (10 ^ (-15)) with (1 # 1000000000000000); lra. }
    assert (TX : num_to_string dp (S754_finite neg m e) = (if neg then [45%Z] else []) ++ print_g p (frac m e)) by (unfold num_to_string; rewrite IT, NR; reflexivity).
    rewrite TX. split.
    { intros r Hr. destruct (strtod_signed neg _ w0 r W1 Hr) as (n' & d' & C1 & C2 & C3 & C4). rewrite <- app_assoc, C4.
      rewrite (to_double_q neg n' d' n d), T; auto. rewrite C3. symmetry. exact UE. }
    intros _. destruct neg; cbn [app].
    + eexists. split; [apply wr_minus; exact W1|]. rewrite A3, <- UE. reflexivity.
    + eexists. split; [apply wr_plain; exact W1|]. rewrite A3, <- UE. reflexivity.
Qed.

(** ** What does not hold (C58) *)
(** With the default precision, text does not determine the number: 1/3 prints as 0.333333333333333. *)
Theorem default_round_trip_refuted : exists x, double x /\ is_normal x = true /\
  num_to_string default_dblPrec x = [48; 46]%Z ++ repeat 51%Z 15 /\ exists y, strtod (num_to_string default_dblPrec x) = Some (y, []) /\ y <> x.
Proof.
  exists (S754_finite false 6004799503160661 (-54)). split; [left; lia|]. split; [reflexivity|]. split; [vm_compute; reflexivity|].
  eexists. split; [vm_compute; reflexivity | discriminate].
Qed.
(** dblPrec 0 (documented as the maximum) is not enough either: 0.30000000000000004 prints as 0.3. *)
Theorem max_precision_refuted : exists x, double x /\ is_normal x = true /\ num_to_string 0 x = [48; 46; 51]%Z /\
  exists y, strtod (num_to_string 0 x) = Some (y, []) /\ y <> x.
Proof.
  exists (S754_finite false 5404319552844596 (-54)). split; [left; lia|]. split; [reflexivity|]. split; [vm_compute; reflexivity|].
  eexists. split; [vm_compute; reflexivity | discriminate].
Qed.
(** -0 prints as 0, and a subnormal number prints as undefined, in JSON as null. *)
Theorem text_exceptions_refuted : (forall dp, num_to_string dp (S754_zero true) = [48%Z]) /\
  (forall dp x, is_subnormal x = true -> num_to_string dp x = [117; 110; 100; 101; 102; 105; 110; 101; 100]%Z /\ num_to_json dp x = [110; 117; 108; 108]%Z).
Proof.
  split; [reflexivity|]. intros dp x H. unfold num_to_string, num_to_json.
  destruct x as [s|s| |s m e]; try discriminate. cbn [is_integer is_normal]. rewrite H. split; reflexivity.
Qed.

(** ** Cases that meet the hypotheses *)
Definition tenth : num := S754_finite false 7205759403792794 (-56).
Lemma number_text_meets : double tenth /\ is_normal tenth = true /\ is_integer tenth = false /\ stop [44%Z] /\
  num_to_string default_dblPrec tenth = [48; 46; 49]%Z /\ strtod [48; 46; 49]%Z = Some (tenth, []) /\
  writes [48; 46; 49]%Z (inject_Z 1 * 10 ^ (0 - 1)) /\ sig_digits 15 (inject_Z 1 * 10 ^ (0 - 1)) /\
  num_to_string 18 tenth = [48; 46; 49; 48; 48; 48; 48; 48; 48; 48; 48; 48; 48; 48; 48; 48; 48; 48; 49]%Z /\
  strtod [32; 45; 49; 46; 53; 69; 43; 51; 59]%Z = Some (S754_finite true 6597069766656000 (-42), [59%Z]).
Proof.
  split; [left; lia|]. split; [reflexivity|]. split; [vm_compute; reflexivity|]. split; [cbn; lia|].
  split; [vm_compute; reflexivity|]. split; [vm_compute; reflexivity|].
  split. { apply wr_plain. apply (mg_frac [48%Z] [49%Z] [] 0); [repeat constructor; lia | repeat constructor; lia | discriminate | constructor]. }
  split; [exists 1%Z, (0 - 1)%Z; split; [lia | reflexivity]|]. split; vm_compute; reflexivity.
Qed.
