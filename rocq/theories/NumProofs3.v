(** Text: what printing writes and what reading makes of it *)
From Coq Require Import ZArith QArith Qpower Qabs Qround List Lia Lqa Bool SpecFloat.
From Verif Require Import UtfModel Bits NumModel NumSpec NumProofs NumProofs2.
Import ListNotations.
Local Open Scope Z_scope.

(** * Digits *)
Lemma decimal_from : forall b a, fold_left (fun a c => 10 * a + (c - 48)) b a = a * 10 ^ Z.of_nat (length b) + decimal b.
Proof.
  unfold decimal. induction b as [|c b IH]; intros a; [cbn; lia|]. cbn [fold_left length]. rewrite IH, (IH (10 * 0 + (c - 48))).
  rewrite Nat2Z.inj_succ, Z.pow_succ_r by lia. ring.
Qed.
Lemma decimal_app : forall a b, decimal (a ++ b) = decimal a * 10 ^ Z.of_nat (length b) + decimal b.
Proof. intros a b. unfold decimal at 1. rewrite fold_left_app. apply decimal_from. Qed.
Lemma decimal_zeros : forall n, decimal (repeat 48 n) = 0.
Proof. induction n as [|n IH]; [reflexivity|]. change (repeat 48 (S n)) with ([48] ++ repeat 48 n). rewrite decimal_app, IH. reflexivity. Qed.
Lemma decimal_nonneg : forall s, digits s -> 0 <= decimal s.
Proof.
  intros s H. induction s as [|c s IH] using rev_ind; [cbn; lia|]. apply Forall_app in H. destruct H as [H1 H2]. inversion H2; subst.
  rewrite decimal_app. unfold decimal at 2. cbn [fold_left length]. specialize (IH H1). change (Z.of_nat 1) with 1. lia.
Qed.
Lemma dec_decimal : forall s, dec s = decimal s.
Proof. reflexivity. Qed.
Lemma udec_app : forall f n acc, udec f n acc = udec f n [] ++ acc.
Proof.
  induction f; intros n acc; cbn [udec]; auto.
  destruct (n / 10 =? 0); auto. rewrite IHf, (IHf _ [_]), <- app_assoc. reflexivity.
Qed.
Lemma udec_ok : forall f n, 0 <= n < 10 ^ Z.of_nat f -> (0 < f)%nat ->
  decimal (udec f n []) = n /\ digits (udec f n []) /\ udec f n [] <> [].
Proof.
  induction f as [|f IH]; intros n Hn Hf; [lia|]. clear Hf. cbn [udec].
  pose proof (Z.mod_pos_bound n 10 ltac:(lia)) as B. pose proof (Z.div_mod n 10 ltac:(lia)) as D.
  destruct (Z.eqb_spec (n / 10) 0) as [Q|Q].
  - split; [unfold decimal; cbn [fold_left]; lia|]. split; [repeat constructor; lia | discriminate].
  - rewrite udec_app. destruct f as [|f'].
    { change (10 ^ Z.of_nat 1) with 10 in Hn. exfalso. apply Q. apply Z.div_small; lia. }
    destruct (IH (n / 10)) as (A & B' & C); [|lia|].
    { rewrite (Nat2Z.inj_succ (S f')), Z.pow_succ_r in Hn by lia.
      split; [apply Z.div_pos; lia|]. apply Z.div_lt_upper_bound; lia. }
    split; [|split].
    + rewrite decimal_app, A. unfold decimal. cbn [fold_left length]. change (Z.of_nat 1) with 1. lia.
    + apply Forall_app; split; auto. repeat constructor; lia.
    + intros X. apply app_eq_nil in X as [_ X]. discriminate.
Qed.
Lemma udec_length : forall f n j, (j < f)%nat -> 10 ^ Z.of_nat j <= n < 10 ^ Z.of_nat (S j) -> length (udec f n []) = S j.
Proof.
  induction f as [|f IH]; intros n j Hf Hn; [lia|]. cbn [udec].
  pose proof (Z.div_mod n 10 ltac:(lia)) as D. pose proof (Z.mod_pos_bound n 10 ltac:(lia)) as B.
  destruct j as [|j].
  - change (10 ^ Z.of_nat 0) with 1 in Hn. change (10 ^ Z.of_nat 1) with 10 in Hn. rewrite Z.div_small by lia. reflexivity.
  - rewrite !Nat2Z.inj_succ, !Z.pow_succ_r in Hn by lia. assert (P : 0 < 10 ^ Z.of_nat j) by (apply Z.pow_pos_nonneg; lia).
    destruct (Z.eqb_spec (n / 10) 0) as [Q|Q]; [exfalso; lia|].
    rewrite udec_app, app_length, (IH (n / 10) j); [cbn [length]; lia | lia|].
    rewrite Nat2Z.inj_succ, Z.pow_succ_r by lia. split; [apply Z.div_le_lower_bound; lia | apply Z.div_lt_upper_bound; lia].
Qed.
Lemma strip_ok : forall f, exists z, f = strip_zeros f ++ repeat 48 z.
Proof.
  induction f as [|c f (z & IH)]; [exists O; reflexivity|]. cbn [strip_zeros]. destruct (strip_zeros f) as [|d g].
  - cbn [app] in IH. destruct (Z.eqb_spec c 48) as [->|N].
    + exists (S z). cbn [app repeat]. congruence.
    + exists z. cbn [app]. congruence.
  - exists z. cbn [app] in *. congruence.
Qed.
Lemma strip_digits : forall f, digits f -> digits (strip_zeros f).
Proof. intros f H. destruct (strip_ok f) as (z & E). rewrite E in H. apply Forall_app in H. apply H. Qed.

Local Open Scope Q_scope.
Lemma p10_plus : forall a b, 10 ^ (a + b) == 10 ^ a * 10 ^ b.
Proof. intros. apply (pw_plus 10 a b eq_refl). Qed.
Lemma p10_pos : forall k, 0 < 10 ^ k.
Proof. intros. apply (pw_pos 10 k eq_refl). Qed.
Lemma p10_Z : forall a, (0 <= a)%Z -> inject_Z (10 ^ a) == 10 ^ a.
Proof. intros. symmetry. apply (pw_Z 10). auto. Qed.

(** * Printing *)
Lemma point_value : forall i f ex x, digits i -> digits f -> i <> [] -> exponent_text ex x ->
  exists w, magnitude (i ++ point (strip_zeros f) ++ ex) w /\ w == inject_Z (decimal (i ++ f)) * 10 ^ (x - Z.of_nat (length f)).
Proof.
  intros i f ex x Di Df Ni Hx. destruct (strip_ok f) as (z & E). pose proof (strip_digits f Df) as Ds.
  assert (D : inject_Z (decimal (i ++ f)) == inject_Z (decimal (i ++ strip_zeros f)) * 10 ^ Z.of_nat z).
  { rewrite E at 1. rewrite app_assoc, decimal_app, decimal_zeros, repeat_length, Z.add_0_r, inject_Z_mult, p10_Z by lia. reflexivity. }
  assert (LN : length f = (length (strip_zeros f) + z)%nat) by (rewrite E at 1; rewrite app_length, repeat_length; lia).
  assert (V : inject_Z (decimal (i ++ f)) * 10 ^ (x - Z.of_nat (length f)) == inject_Z (decimal (i ++ strip_zeros f)) * 10 ^ (x - Z.of_nat (length (strip_zeros f)))).
  { rewrite D, <- Qmult_assoc, <- p10_plus. rewrite LN. replace (Z.of_nat z + (x - Z.of_nat (length (strip_zeros f) + z)))%Z with (x - Z.of_nat (length (strip_zeros f)))%Z by lia. reflexivity. }
  destruct (strip_zeros f) as [|c g] eqn:Es; cbn [point app].
  - rewrite app_nil_r in V. exists (inject_Z (decimal i) * 10 ^ x). split; [constructor; auto|].
    rewrite V. change (Z.of_nat (length (@nil Z))) with 0%Z. rewrite Z.sub_0_r. reflexivity.
  - exists (inject_Z (decimal (i ++ c :: g)) * 10 ^ (x - Z.of_nat (length (c :: g)))). split; [|symmetry; exact V].
    change (46%Z :: c :: g ++ ex) with (46%Z :: (c :: g) ++ ex). constructor; auto. destruct i; [congruence|discriminate].
Qed.
Lemma exponent_ok : forall x, (Z.abs x < 10 ^ 19)%Z -> exponent_text (exponent x) x.
Proof.
  intros x H. unfold exponent. destruct (udec_ok 20 (Z.abs x)) as (A & B & C); [change (10 ^ Z.of_nat 20)%Z with (10 * 10 ^ 19)%Z; lia | lia|].
  set (ds := (if (Z.abs x <? 10)%Z then [48%Z] else []) ++ udec 20 (Z.abs x) []).
  assert (D : decimal ds = Z.abs x /\ digits ds /\ ds <> []).
  { unfold ds. destruct (Z.abs x <? 10)%Z; cbn [app]; [|auto]. change (48%Z :: udec 20 (Z.abs x) []) with ([48%Z] ++ udec 20 (Z.abs x) []).
    split; [rewrite decimal_app, A; cbn; lia|]. split; [constructor; [lia|auto] | discriminate]. }
  destruct D as (D1 & D2 & D3). destruct (Z.ltb_spec x 0) as [L|L].
  - assert (E : exponent_text (101%Z :: 45%Z :: ds) (- decimal ds)) by (apply et_minus; cbn [In]; auto).
    replace (- decimal ds)%Z with x in E by lia. exact E.
  - assert (E : exponent_text (101%Z :: [43%Z] ++ ds) (decimal ds)) by (apply et_plus; cbn [In]; auto).
    replace (decimal ds) with x in E by lia. exact E.
Qed.
Lemma print_g_writes : forall p nd x k, (1 <= p)%Z -> sig p nd = (x, k) -> (10 ^ (p - 1) <= k < 10 ^ p)%Z -> (Z.abs x < 10 ^ 19)%Z ->
  exists w, magnitude (print_g p nd) w /\ w == inject_Z k * 10 ^ (x - p + 1).
Proof.
  intros p nd x k Hp ES Hk Hx. unfold print_g. rewrite ES.
  destruct (udec_ok (Z.to_nat p) k) as (A & B & C); [rewrite Z2Nat.id by lia; pose proof (Z.pow_nonneg 10 (p - 1)); lia | lia|].
  assert (LN : length (udec (Z.to_nat p) k []) = Z.to_nat p).
  { replace (Z.to_nat p) with (S (Z.to_nat (p - 1))) at 2 by lia. apply udec_length; [lia|].
    rewrite Nat2Z.inj_succ, Z2Nat.id by lia. replace (Z.succ (p - 1)) with p by lia. exact Hk. }
  set (ds := udec (Z.to_nat p) k []) in *.
  destruct (Z.leb_spec (-4) x) as [X1|X1]; [destruct (Z.ltb_spec x p) as [X2|X2]|]; cbn [andb].
  - destruct (Z.ltb_spec x 0) as [X3|X3].
    + destruct (point_value [48%Z] (repeat 48%Z (Z.to_nat (- x - 1)) ++ ds) [] 0%Z) as (w & W1 & W2).
      { repeat constructor; lia. } { apply Forall_app. split; [|exact B]. apply Forall_forall. intros c Hc. apply repeat_spec in Hc. lia. }
      { discriminate. } { constructor. }
      rewrite app_nil_r in W1. exists w. split; [exact W1|]. rewrite W2.
      rewrite app_length, repeat_length, LN. rewrite app_assoc, decimal_app, A.
      change ([48%Z] ++ repeat 48%Z (Z.to_nat (- x - 1))) with (repeat 48%Z (S (Z.to_nat (- x - 1)))). rewrite decimal_zeros, Z.mul_0_l, Z.add_0_l.
      replace (0 - Z.of_nat (Z.to_nat (- x - 1) + Z.to_nat p))%Z with (x - p + 1)%Z by lia. reflexivity.
    + destruct (point_value (firstn (Z.to_nat (x + 1)) ds) (skipn (Z.to_nat (x + 1)) ds) [] 0%Z) as (w & W1 & W2).
      { rewrite <- (firstn_skipn (Z.to_nat (x + 1)) ds) in B. apply Forall_app in B. apply B. }
      { rewrite <- (firstn_skipn (Z.to_nat (x + 1)) ds) in B. apply Forall_app in B. apply B. }
      { intros X. apply (f_equal (@length Z)) in X. rewrite firstn_length, LN in X. cbn [length] in X. lia. }
      { constructor. }
      rewrite app_nil_r in W1. exists w. split; [exact W1|]. rewrite W2, firstn_skipn, skipn_length, LN, A.
      replace (0 - Z.of_nat (Z.to_nat p - Z.to_nat (x + 1)))%Z with (x - p + 1)%Z by lia. reflexivity.
  - destruct ds as [|c r] eqn:E; [contradiction|]. pose proof (Forall_inv B) as Dc. pose proof (Forall_inv_tail B) as Dr. cbv beta in Dc.
    destruct (point_value [c] r (exponent x) x) as (w & W1 & W2); auto; [repeat constructor; lia | discriminate | apply exponent_ok; auto|].
    exists w. split; [exact W1|]. rewrite W2. cbn [app]. rewrite A. cbn [length] in LN. replace (x - Z.of_nat (length r))%Z with (x - p + 1)%Z by lia. reflexivity.
  - destruct ds as [|c r] eqn:E; [contradiction|]. pose proof (Forall_inv B) as Dc. pose proof (Forall_inv_tail B) as Dr. cbv beta in Dc.
    destruct (point_value [c] r (exponent x) x) as (w & W1 & W2); auto; [repeat constructor; lia | discriminate | apply exponent_ok; auto|].
    exists w. split; [exact W1|]. rewrite W2. cbn [app]. rewrite A. cbn [length] in LN. replace (x - Z.of_nat (length r))%Z with (x - p + 1)%Z by lia. reflexivity.
Qed.

(** * Reading *)
Definition nondigit (r : list Z) : Prop := match r with c :: _ => ~ (48 <= c <= 57)%Z | [] => True end.
Lemma stop_nondigit : forall r, stop r -> nondigit r.
Proof. intros [|c r]; cbn; tauto. Qed.
Lemma digit_iff : forall c, digit c = true <-> (48 <= c <= 57)%Z.
Proof. intros c. unfold digit. rewrite andb_true_iff, !Z.leb_le. tauto. Qed.
Lemma span_ok : forall ds r, digits ds -> nondigit r -> span (ds ++ r) = (ds, r).
Proof.
  induction ds as [|c ds IH]; intros r D N.
  - destruct r as [|c r]; [reflexivity|]. cbn [app span nondigit] in *. destruct (digit c) eqn:E; [apply digit_iff in E; contradiction | reflexivity].
  - inversion D; subst. cbn [app span]. rewrite (proj2 (digit_iff c)) by auto. rewrite IH; auto.
Qed.
Lemma span_rest : forall s, digits (fst (span s)) /\ nondigit (snd (span s)).
Proof.
  induction s as [|c s [I1 I2]]; cbn [span]; [split; constructor|]. destruct (digit c) eqn:E.
  - destruct (span s) as [a b]. cbn [fst snd] in *. split; auto. constructor; auto. apply digit_iff; auto.
  - cbn [fst snd]. split; [constructor|]. cbn. intros H. apply digit_iff in H. congruence.
Qed.
Lemma read_exp_ok : forall ex x r, exponent_text ex x -> stop r -> read_exp (ex ++ r) = (x, r).
Proof.
  intros ex x r H Hr. pose proof (stop_nondigit r Hr) as Nr. destruct H as [|c g ds Hc Hg Hd Hn|c ds Hc Hd Hn].
  - cbn [app]. destruct r as [|c r]; [reflexivity|]. cbn [stop In] in Hr. unfold read_exp.
    destruct (Z.eqb_spec c 101); [exfalso; lia|]. destruct (Z.eqb_spec c 69); [exfalso; lia|]. reflexivity.
  - unfold read_exp. cbn [app]. assert (E : ((c =? 101) || (c =? 69))%Z = true) by (cbn [In] in Hc; destruct Hc as [<- | [<- | []]]; reflexivity). rewrite E.
    destruct ds as [|a ds]; [congruence|]. inversion Hd; subst.
    cbn [In] in Hg. destruct Hg as [<- | [<- | []]].
    + cbn [app]. destruct (Z.eqb_spec a 45); [lia|]. destruct (Z.eqb_spec a 43); [lia|].
      change (a :: ds ++ r) with ((a :: ds) ++ r). rewrite span_ok by auto. reflexivity.
    + cbn [app]. change (43 =? 45)%Z with false. change (43 =? 43)%Z with true. cbv iota.
      change (a :: ds ++ r) with ((a :: ds) ++ r). rewrite span_ok by auto. reflexivity.
  - unfold read_exp. cbn [app]. assert (E : ((c =? 101) || (c =? 69))%Z = true) by (cbn [In] in Hc; destruct Hc as [<- | [<- | []]]; reflexivity). rewrite E.
    destruct ds as [|a ds]; [congruence|]. change (45 =? 45)%Z with true. cbv iota.
    change ((a :: ds) ++ r) with ((a :: ds) ++ r). rewrite span_ok by auto. reflexivity.
Qed.
Lemma exponent_first : forall ex x r, exponent_text ex x -> stop r ->
  match ex ++ r with c :: _ => ~ (48 <= c <= 57)%Z /\ c <> 46%Z /\ c <> 120%Z /\ c <> 88%Z | [] => True end.
Proof.
  intros ex x r H Hr. destruct H as [|c g ds Hc Hg Hd Hn|c ds Hc Hd Hn].
  - cbn [app]. destruct r; auto. cbn [stop In] in Hr. destruct Hr as [H1 H2]. split; auto. repeat split; intros ->; apply H2; auto 10.
  - cbn [app]. cbn [In] in Hc. lia.
  - cbn [app]. cbn [In] in Hc. lia.
Qed.
(** After blanks and the sign *)
Definition strtod_body (neg : bool) (s0 s : list Z) : option (num * list Z) :=
  let c := at_ s 0 in
  if (((c =? 48) && ((at_ s 1 =? 120) || (at_ s 1 =? 88))) || (c =? 105) || (c =? 73) || (c =? 110) || (c =? 78))%Z%bool then None
  else
    let '(i, r) := span s in
    let '(f, r) := match r with
                   | c :: r' => if (c =? 46)%Z then span r' else ([], r)
                   | [] => ([], r) end in
    match i ++ f with
    | [] => Some (S754_zero false, s0)
    | ds => let '(x, r) := read_exp r in
            let '(n, d) := scale 10 (dec ds, 1)%Z (x - Z.of_nat (length f)) in
            Some (to_double neg n d, r)
    end.
Lemma body_value : forall neg s0 ds f x r,  digits ds ->
  exists n d, (0 <= n)%Z /\ (0 < d)%Z /\ q (n, d) == inject_Z (decimal ds) * 10 ^ (x - Z.of_nat (length (f : list Z))) /\
  (let '(n, d) := scale 10 (dec ds, 1)%Z (x - Z.of_nat (length f)) in Some (to_double neg n d, r : list Z)) = Some (to_double neg n d, r) /\ s0 = s0 :> list Z.
Proof.
  intros neg s0 ds f x r D. pose proof (q_scale 10 (dec ds, 1)%Z (x - Z.of_nat (length f)) ltac:(lia) ltac:(cbn; lia)) as Q.
  pose proof (scale_snd 10 (dec ds, 1)%Z (x - Z.of_nat (length f)) ltac:(lia) ltac:(cbn; lia)) as S1.
  pose proof (scale_fst 10 (dec ds, 1)%Z (x - Z.of_nat (length f)) ltac:(lia) ltac:(cbn [fst]; rewrite dec_decimal; apply decimal_nonneg; auto)) as S2.
  destruct (scale 10 (dec ds, 1)%Z (x - Z.of_nat (length f))) as [n d]. cbn [fst snd] in *. exists n, d. split; [auto|]. split; [auto|]. split; [|auto].
  rewrite Q. change (inject_Z 10) with 10. unfold q. cbn [fst snd]. rewrite dec_decimal. change (inject_Z 1) with 1. field.
Qed.
Lemma body_reads : forall neg s0 s v r, magnitude s v -> stop r ->
  exists n d, (0 <= n)%Z /\ (0 < d)%Z /\ q (n, d) == v /\ strtod_body neg s0 (s ++ r) = Some (to_double neg n d, r).
Proof.
  intros neg s0 s v r H Hr. destruct H as [i ex x Di Ni Hx|i f ex x Di Df Nif Hx].
  - pose proof (exponent_first ex x r Hx Hr) as F. rewrite <- app_assoc. unfold strtod_body.
    destruct i as [|c i]; [congruence|]. inversion Di as [|? ? Dc Di']; subst.
    assert (T : (((at_ ((c :: i) ++ ex ++ r) 0 =? 48) && ((at_ ((c :: i) ++ ex ++ r) 1 =? 120) || (at_ ((c :: i) ++ ex ++ r) 1 =? 88))) || (at_ ((c :: i) ++ ex ++ r) 0 =? 105) || (at_ ((c :: i) ++ ex ++ r) 0 =? 73) || (at_ ((c :: i) ++ ex ++ r) 0 =? 110) || (at_ ((c :: i) ++ ex ++ r) 0 =? 78))%Z%bool = false).
    { cbn [app]. change (at_ (c :: i ++ ex ++ r) 0) with c. change (at_ (c :: i ++ ex ++ r) 1) with (at_ (i ++ ex ++ r) 0).
      assert (N : (at_ (i ++ ex ++ r) 0 <> 120 /\ at_ (i ++ ex ++ r) 0 <> 88)%Z).
      { destruct i as [|c' i]; cbn [app].
        - destruct (ex ++ r) as [|c' l]; [cbn; lia|]. change (at_ (c' :: l) 0) with c'. tauto.
        - change (at_ (c' :: i ++ ex ++ r) 0) with c'. inversion Di'; subst. lia. }
      destruct N as [N1 N2]. apply Z.eqb_neq in N1, N2. rewrite N1, N2. cbn [orb]. rewrite andb_false_r. cbn [orb].
      repeat match goal with |- context [(c =? ?k)%Z] => destruct (Z.eqb_spec c k); [lia|] end. reflexivity. }
    rewrite T. rewrite span_ok; [|auto | destruct (ex ++ r); cbn; tauto].
    assert (W : match ex ++ r with c :: r' => if (c =? 46)%Z then span r' else ([], ex ++ r) | [] => ([], ex ++ r) end = ([], ex ++ r)).
    { destruct (ex ++ r) as [|c' l]; [reflexivity|]. destruct (Z.eqb_spec c' 46); [lia|reflexivity]. }
    rewrite W. rewrite app_nil_r, (read_exp_ok ex x r) by auto. 
    destruct (body_value neg s0 (c :: i) [] x r Di) as (n & d & B1 & B2 & B3 & B4 & _). exists n, d. split; [auto|]. split; [auto|].
    split; [rewrite B3; cbn [length]; change (Z.of_nat 0) with 0%Z; rewrite Z.sub_0_r; reflexivity | exact B4].
  - rewrite <- app_assoc. cbn [app]. rewrite <- app_assoc. pose proof (exponent_first ex x r Hx Hr) as F. unfold strtod_body.
    assert (T : (((at_ (i ++ 46%Z :: f ++ ex ++ r) 0 =? 48) && ((at_ (i ++ 46%Z :: f ++ ex ++ r) 1 =? 120) || (at_ (i ++ 46%Z :: f ++ ex ++ r) 1 =? 88))) || (at_ (i ++ 46%Z :: f ++ ex ++ r) 0 =? 105) || (at_ (i ++ 46%Z :: f ++ ex ++ r) 0 =? 73) || (at_ (i ++ 46%Z :: f ++ ex ++ r) 0 =? 110) || (at_ (i ++ 46%Z :: f ++ ex ++ r) 0 =? 78))%Z%bool = false).
    { destruct i as [|c i]; [reflexivity|]. inversion Di as [|? ? Dc Di']; subst. cbn [app].
      change (at_ (c :: i ++ 46%Z :: f ++ ex ++ r) 0) with c. change (at_ (c :: i ++ 46%Z :: f ++ ex ++ r) 1) with (at_ (i ++ 46%Z :: f ++ ex ++ r) 0).
      assert (N : (at_ (i ++ 46%Z :: f ++ ex ++ r) 0 <> 120 /\ at_ (i ++ 46%Z :: f ++ ex ++ r) 0 <> 88)%Z).
      { destruct i as [|c' i]; cbn [app]; [cbn; lia|]. change (at_ (c' :: i ++ 46%Z :: f ++ ex ++ r) 0) with c'. inversion Di'; subst. lia. }
      destruct N as [N1 N2]. apply Z.eqb_neq in N1, N2. rewrite N1, N2. cbn [orb]. rewrite andb_false_r. cbn [orb].
      repeat match goal with |- context [(c =? ?k)%Z] => destruct (Z.eqb_spec c k); [lia|] end. reflexivity. }
    rewrite T. rewrite span_ok; [|auto | cbn; lia]. change (46 =? 46)%Z with true. cbv iota.
    rewrite span_ok; [|auto | destruct (ex ++ r); cbn; tauto]. rewrite (read_exp_ok ex x r) by auto.
    assert (D : digits (i ++ f)) by (apply Forall_app; auto).
    destruct (body_value neg s0 (i ++ f) f x r D) as (n & d & B1 & B2 & B3 & B4 & _). exists n, d. split; [auto|]. split; [auto|].
    split; [exact B3|]. destruct (i ++ f); [congruence | exact B4].
Qed.
Lemma skip_sp_app : forall sp s, Forall (fun c => sspace c = true) sp -> skip_sp (sp ++ s) = skip_sp s.
Proof. induction sp as [|c sp IH]; intros s H; [reflexivity|]. inversion H; subst. cbn [app skip_sp]. rewrite H2. apply IH; auto. Qed.
Lemma magnitude_first : forall s v, magnitude s v -> exists c t, s = c :: t /\ ((48 <= c <= 57)%Z \/ c = 46%Z).
Proof.
  intros s v H. destruct H as [i ex x Di Ni Hx|i f ex x Di Df Nif Hx].
  - destruct i as [|c i]; [congruence|]. inversion Di; subst. exists c, (i ++ ex). auto.
  - destruct i as [|c i]; [exists 46%Z; eexists; split; [reflexivity|auto]|]. inversion Di; subst. exists c. eexists. split; [reflexivity|auto].
Qed.
Lemma strtod_reads : forall sp s v r, Forall (fun c => sspace c = true) sp -> writes s v -> stop r ->
  exists (neg : bool) n d, (0 <= n)%Z /\ (0 < d)%Z /\ v == (if neg then - q (n, d) else q (n, d)) /\ strtod (sp ++ s ++ r) = Some (to_double neg n d, r).
Proof.
  intros sp s v r Hsp H Hr.
  assert (PL : forall s v, magnitude s v -> exists n d, (0 <= n)%Z /\ (0 < d)%Z /\ q (n, d) == v /\ strtod_body false (sp ++ s ++ r) (s ++ r) = Some (to_double false n d, r)) by (intros; apply body_reads; auto).
  assert (FI : forall s v, magnitude s v -> exists c t, s = c :: t /\ sspace c = false /\ c <> 45%Z /\ c <> 43%Z).
  { intros s1 v1 M. destruct (magnitude_first s1 v1 M) as (c & t & E & C). exists c, t. split; auto. unfold sspace.
    split; [|lia]. destruct (Z.eqb_spec c 32); [lia|]. destruct (Z.leb_spec 9 c); [|reflexivity]. destruct (Z.leb_spec c 13); [lia|reflexivity]. }
  unfold strtod. rewrite skip_sp_app by auto.
  destruct H as [s v M|s v M|s v M].
  - destruct (PL s v M) as (n & d & A1 & A2 & A3 & A4). exists false, n, d. split; [auto|]. split; [auto|]. split; [symmetry; auto|].
    destruct (FI s v M) as (c & t & E & C1 & C2 & C3). rewrite E in *. cbn [app skip_sp] in *. rewrite C1.
    apply Z.eqb_neq in C2, C3. rewrite C2, C3. exact A4.
  - cbn [app skip_sp]. change (sspace 43) with false. cbv iota. change (43 =? 45)%Z with false. change (43 =? 43)%Z with true. cbv iota.
    destruct (body_reads false (sp ++ 43%Z :: s ++ r) s v r M Hr) as (n & d & A1 & A2 & A3 & A4). exists false, n, d. split; [auto|]. split; [auto|]. split; [symmetry; auto|]. exact A4.
  - cbn [app skip_sp]. change (sspace 45) with false. cbv iota. change (45 =? 45)%Z with true. cbv iota.
    destruct (body_reads true (sp ++ 45%Z :: s ++ r) s v r M Hr) as (n & d & A1 & A2 & A3 & A4). exists true, n, d. split; [auto|]. split; [auto|]. split; [rewrite A3; reflexivity|]. exact A4.
Qed.
