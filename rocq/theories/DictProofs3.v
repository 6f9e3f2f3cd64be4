From Coq Require Import ZArith List Bool Lia.
Import ListNotations.
From Verif Require Import Bits DictModel DictSpec DictProofs DictProofs2.
Local Open Scope Z_scope.

(** * The text back from its tokens *)
Definition untok (t : tok) : list Z := match t with Num z ds => repeat 48 (Z.to_nat z) ++ ds | Chr c => [c] end.
Lemma ndc_suffix : forall s u v, no_digit_comma s -> s = u ++ v -> no_digit_comma v.
Proof. intros s u v H -> u' d w E. apply (H (u ++ u') d w). rewrite E, <- app_assoc. auto. Qed.
Lemma isdigit_digit : forall c, isdigit c = true <-> digit c.
Proof. intros c. unfold isdigit, digit. rewrite andb_true_iff, !Z.leb_le. tauto. Qed.
Lemma isdigit_non : forall c, isdigit c = false <-> ~ digit c.
Proof. intros c. rewrite <- isdigit_digit. destruct (isdigit c); split; intros; congruence. Qed.
Lemma take_num_text : forall n s, (length s <= n)%nat -> no_digit_comma s -> s = fst (take_num s) ++ snd (take_num s).
Proof.
  induction n as [|n IH]; intros s Hn Hs.
  - destruct s; [reflexivity | cbn in Hn; lia].
  - destruct s as [|c r]; [reflexivity|]. destruct (isdigit c) eqn:E; [|rewrite take_num_non by auto; reflexivity].
    rewrite take_num_digit by auto.
    assert (skip_comma r = r) as ->.
    { destruct r as [|k r]; auto. cbn. destruct (Z.eqb_spec k 44); auto. subst k. exfalso.
      apply (Hs [] c r eq_refl). apply isdigit_digit. auto. }
    specialize (IH r ltac:(cbn in Hn; lia) (ndc_suffix _ [c] r Hs eq_refl)).
    destruct (take_num r) as [ds t]. cbn [fst snd app] in *. congruence.
Qed.
Lemma toks_text : forall n s, (length s <= n)%nat -> no_digit_comma s -> flat_map untok (toks n s) = s.
Proof.
  induction n as [|n IH]; intros s Hn Hs; [destruct s; [reflexivity | cbn in Hn; lia]|].
  destruct s as [|c r]; [reflexivity|]. destruct (isdigit c) eqn:E.
  - rewrite toks_num by auto. cbn [flat_map untok].
    pose proof (after_len (c :: r) E) as L. destruct (after_suffix (c :: r)) as (u & Hu).
    rewrite IH; [|cbn [length] in *; lia | eapply ndc_suffix; eauto].
    destruct (skip_zeros_suffix (c :: r)) as [H _]. unfold after.
    rewrite <- app_assoc, <- (take_num_text _ _ (le_n _)); [auto|].
    eapply ndc_suffix; [exact Hs | exact H].
  - rewrite toks_chr by auto. cbn [flat_map untok app]. f_equal. apply IH; [cbn in Hn; lia | eapply (ndc_suffix _ [c]); eauto].
Qed.
Definition wf_tok (t : tok) : Prop :=
  match t with Num z _ => 0 <= z | Chr c => isdigit c = false /\ ~ 91 <= c <= 96 end.
Lemma toks_wf : forall n s, plain s -> Forall wf_tok (toks n s).
Proof.
  induction n as [|n IH]; intros s Hs; [constructor|]. destruct s as [|c r]; [constructor|].
  destruct (isdigit c) eqn:E.
  - rewrite toks_num by auto. constructor; [apply skip_zeros_suffix|]. destruct (after_suffix (c :: r)) as (u & Hu).
    apply IH. eapply Forall_suffix; eauto.
  - rewrite toks_chr by auto. inversion Hs as [|? ? [_ H] Hr]; subst. constructor; [split; auto | apply IH; auto].
Qed.
Lemma lower_inj : forall c e, ~ 91 <= c <= 96 -> ~ 91 <= e <= 96 -> lower c = lower e -> isupper c = isupper e -> c = e.
Proof.
  intros c e Hc He. unfold lower. fold (isupper c) (isupper e). destruct (isupper c), (isupper e); intros; try discriminate; lia.
Qed.
Lemma keys_inj : forall ts us, Forall wf_tok ts -> Forall wf_tok us -> pk ts = pk us -> sk ts = sk us -> ts = us.
Proof.
  induction ts as [|t ts IH]; intros [|u us] Ht Hu HP HS; auto.
  - destruct u; discriminate.
  - destruct t; discriminate.
  - inversion Ht as [|? ? Wt Ht']; subst. inversion Hu as [|? ? Wu Hu']; subst. unfold pk, sk in *. cbn [flat_map] in *.
    destruct t as [z ds | c], u as [z' es | e]; cbn [pkey skey app] in HP, HS.
    + injection HP as HL HP. injection HS as HS1 HS2. apply Nat2Z.inj in HL.
      assert (ds = es /\ flat_map pkey ts = flat_map pkey us) as [-> HP'].
      { clear -HL HP. revert es HL HP. induction ds as [|x ds IH]; intros [|y es] HL HP; try discriminate; auto.
        cbn [app] in HP. injection HP as -> HP. injection HL as HL. destruct (IH es HL HP) as [-> ->]. auto. }
      subst z'. f_equal. auto.
    + injection HP as HP _. exfalso. destruct Wu as [W _]. apply isdigit_non in W. unfold digit in W.
      pose proof (lower_bounds e). lia.
    + injection HP as HP _. exfalso. destruct Wt as [W _]. apply isdigit_non in W. unfold digit in W.
      pose proof (lower_bounds c). lia.
    + injection HP as HP1 HP2. injection HS as HS1 HS2. destruct Wt as [_ Wt], Wu as [_ Wu].
      assert (isupper c = isupper e) by (destruct (isupper c), (isupper e); congruence).
      rewrite (lower_inj c e Wt Wu HP1 H). f_equal. auto.
Qed.

(** * A common beginning does not matter *)
Lemma bn_suffix : forall s u v, before_number s -> s = u ++ v -> before_number v.
Proof. intros s u v H -> u' c E. apply (H (u ++ u') c). rewrite E, app_assoc. auto. Qed.
Lemma bn_digit : forall c p, before_number (c :: p) -> isdigit c = true -> p <> [].
Proof. intros c p H Hc ->. destruct (H [] c eq_refl) as [X _]. apply X. apply isdigit_digit. auto. Qed.
Lemma hd0_app : forall p x, p <> [] -> hd0 (p ++ x) = hd0 p.
Proof. intros [|c p] x H; [contradiction | auto]. Qed.
Lemma skip_zeros_app : forall p x, p <> [] -> before_number p ->
  skip_zeros (p ++ x) = (fst (skip_zeros p) ++ x, snd (skip_zeros p)) /\ fst (skip_zeros p) <> [].
Proof.
  induction p as [|c p IH]; intros x Hne Hp; [contradiction|]. cbn [app skip_zeros].
  destruct (Z.eqb_spec c 48) as [->|]; cbn [andb]; [|split; [reflexivity | discriminate]].
  assert (p <> []) as Hq by (eapply bn_digit; eauto). rewrite hd0_app by auto.
  destruct (isdigit (hd0 p)); [|split; [reflexivity | discriminate]].
  destruct (IH x Hq (bn_suffix _ [48] p Hp eq_refl)) as [-> H2]. destruct (skip_zeros p); auto.
Qed.
Lemma take_num_app : forall n p x, (length p <= n)%nat -> p <> [] -> before_number p ->
  take_num (p ++ x) = (fst (take_num p), snd (take_num p) ++ x).
Proof.
  induction n as [|n IH]; intros p x Hn Hne Hp; [destruct p; [contradiction | cbn in Hn; lia]|].
  destruct p as [|c p]; [contradiction|]. cbn [app]. destruct (isdigit c) eqn:E; [|rewrite !take_num_non by auto; auto].
  rewrite !take_num_digit by auto. assert (Hq : p <> []) by (eapply bn_digit; eauto).
  assert (skip_comma (p ++ x) = skip_comma p ++ x) as ->.
  { destruct p as [|k p]; [contradiction|]. cbn. destruct (k =? 44); auto. }
  destruct (skip_comma_suffix p) as (v & Hv).
  assert (skip_comma p <> []).
  { destruct p as [|k p]; [contradiction|]. cbn. destruct (Z.eqb_spec k 44); [|discriminate]. subst k. intros ->.
    destruct (Hp [c] 44 eq_refl). contradiction. }
  rewrite (IH (skip_comma p) x); auto.
  - destruct (take_num (skip_comma p)); auto.
  - pose proof (skip_comma_len p). cbn [length] in Hn. lia.
  - apply (bn_suffix (c :: p) (c :: v)); auto. cbn [app]. congruence.
Qed.
Lemma fdiff_same : forall a, fdiff 0 a a = 0.
Proof. induction a as [|x a IH]; auto. cbn [fdiff Z.eqb]. rewrite Z.sub_diag. auto. Qed.
Lemma compare_prefix : forall f p x y d v w, before_number p -> cbytes p ->
  (length (p ++ x) < f)%nat ->
  compare_loop f x y d = Some v -> compare_loop f (p ++ x) (p ++ y) d = Some w -> v = w.
Proof.
  induction f as [|f IH]; intros p x y d v w Hp Hb Hf Hv Hw; [lia|].
  destruct p as [|c p]; [cbn [app] in Hw; congruence|].
  assert (REC : forall q w', before_number q -> cbytes q -> (length (q ++ x) < f)%nat ->
            compare_loop f (q ++ x) (q ++ y) d = Some w' -> v = w').
  { intros q w' Hq Hqb Hqf Hw'. destruct (compare_total f x y d) as (v' & Hv').
    - rewrite app_length in Hqf. lia.
    - rewrite (compare_mono _ _ _ _ _ Hv' (S f) ltac:(lia)) in Hv. injection Hv as <-. eapply IH; eauto. }
  destruct (isdigit c) eqn:E.
  - pose proof (compare_num _ ((c :: p) ++ x) ((c :: p) ++ y) _ _ E E Hw) as C. cbv zeta in C.
    destruct (skip_zeros_app (c :: p) x ltac:(discriminate) Hp) as [Sx Sn].
    destruct (skip_zeros_app (c :: p) y ltac:(discriminate) Hp) as [Sy _].
    unfold after in C. rewrite Sx, Sy in C. cbn [fst snd] in C.
    destruct (skip_zeros_suffix (c :: p)) as [Hs _].
    assert (B1 : before_number (fst (skip_zeros (c :: p)))) by (eapply bn_suffix; eauto).
    rewrite !(take_num_app _ _ _ (le_n _) Sn B1) in C. cbn [fst snd] in C.
    rewrite Nat.ltb_irrefl, fdiff_same, Z.sub_diag in C. cbn [Z.eqb] in C.
    assert (Ed : (if d =? 0 then 0 else d) = d) by (destruct (Z.eqb_spec d 0); auto). rewrite Ed in C.
    destruct (after_suffix (c :: p)) as (u & Hu). unfold after in Hu.
    eapply REC; [| | | exact C].
    + exact (bn_suffix _ _ _ Hp Hu).
    + exact (Forall_suffix _ _ _ _ Hb Hu).
    + pose proof (after_len (c :: p) E) as L. unfold after in L. rewrite app_length in *. lia.
  - cbn [compare_loop app hd0 tl] in Hw. rewrite E in Hw. cbn [andb] in Hw. rewrite Z.sub_diag in Hw. cbn [Z.eqb] in Hw.
    inversion Hb as [|? ? Hc Hb']; subst. destruct (Z.eqb_spec c 0); [lia|].
    eapply REC; [| | | exact Hw]; auto.
    + eapply (bn_suffix _ [c]); eauto.
    + cbn [app length] in Hf. lia.
Qed.

(** * Digits as numbers *)
Lemma value_app : forall ds n, fold_left (fun n c => n * 10 + (c - 48)) ds n = n * 10 ^ Z.of_nat (length ds) + value ds.
Proof.
  induction ds as [|c ds IH]; intros n; [cbn; lia|]. unfold value. cbn [fold_left length]. rewrite (IH (n * 10 + (c - 48))), (IH (0 * 10 + (c - 48))).
  rewrite Nat2Z.inj_succ, Z.pow_succ_r by lia. lia.
Qed.
Lemma value_cons : forall c ds, value (c :: ds) = (c - 48) * 10 ^ Z.of_nat (length ds) + value ds.
Proof. intros. unfold value at 1. cbn [fold_left]. rewrite value_app. lia. Qed.
Lemma value_bound : forall ds, Forall digit ds -> 0 <= value ds < 10 ^ Z.of_nat (length ds).
Proof.
  induction ds as [|c ds IH]; intros H; [cbn; lia|]. inversion H as [|? ? Hc H']; subst. specialize (IH H').
  rewrite value_cons. cbn [length]. rewrite Nat2Z.inj_succ, Z.pow_succ_r by lia. unfold digit in Hc. nia.
Qed.
Lemma value_lex : forall ds es, Forall digit ds -> Forall digit es -> length ds = length es ->
  lexz ds es = Z.sgn (value ds - value es).
Proof.
  induction ds as [|c ds IH]; intros [|e es] Hd He HL; try discriminate; auto.
  inversion Hd as [|? ? Hc Hd']; subst. inversion He as [|? ? Hec He']; subst. injection HL as HL.
  rewrite !value_cons. cbn [lexz]. pose proof (value_bound ds Hd'). pose proof (value_bound es He'). rewrite HL in *.
  destruct (c <? e) eqn:E1; [rewrite Z.sgn_neg; auto; apply Z.ltb_lt in E1; nia|].
  destruct (e <? c) eqn:E2; [rewrite Z.sgn_pos; auto; apply Z.ltb_lt in E2; nia|].
  assert (c = e) as -> by zbb. rewrite (IH es Hd' He' eq_refl). f_equal. lia.
Qed.

(** Leading zeros *)
Lemma skip_zeros_digits : forall ds r, ds <> [] -> Forall digit ds -> after_number r ->
  exists z ds', skip_zeros (ds ++ r) = (ds' ++ r, z) /\ ds' <> [] /\ Forall digit ds' /\ value ds' = value ds /\
    (length ds' = 1%nat \/ exists c t, ds' = c :: t /\ c <> 48).
Proof.
  induction ds as [|c ds IH]; intros r Hne Hd Hr; [contradiction|]. inversion Hd as [|? ? Hc Hd']; subst.
  cbn [app skip_zeros]. destruct (Z.eqb_spec c 48) as [->|Hn]; cbn [andb].
  - destruct (isdigit (hd0 (ds ++ r))) eqn:E.
    + assert (ds <> []) as Hq.
      { intros ->. cbn [app] in E. destruct (hd0_digit _ E) as (k & u & -> & Ek). destruct (Hr k u eq_refl) as [X _].
        apply X. apply isdigit_digit. auto. }
      destruct (IH r Hq Hd' Hr) as (z & ds' & -> & H2 & H3 & H4 & H5). exists (z + 1), ds'. rewrite value_cons. repeat split; auto.
    + exists 0, (48 :: ds). split; [reflexivity|]. split; [discriminate|]. split; auto. split; auto. left.
      destruct ds as [|k ds]; auto. cbn [app hd0] in E. inversion Hd' as [|? ? Hk _]; subst. apply isdigit_digit in Hk. congruence.
  - exists 0, (c :: ds). split; [reflexivity|]. split; [discriminate|]. split; auto. split; auto. right. eauto.
Qed.
Lemma take_num_digits : forall ds r, Forall digit ds -> after_number r -> take_num (ds ++ r) = (ds, r).
Proof.
  induction ds as [|c ds IH]; intros r Hd Hr.
  - cbn [app]. destruct r as [|k r]; auto. destruct (Hr k r eq_refl) as [X _]. apply isdigit_non in X. rewrite take_num_non; auto.
  - inversion Hd as [|? ? Hc Hd']; subst. cbn [app]. rewrite take_num_digit by (apply isdigit_digit; auto).
    assert (skip_comma (ds ++ r) = ds ++ r) as ->.
    { destruct ds as [|k ds]; cbn [app].
      - destruct r as [|k r]; auto. cbn. destruct (Z.eqb_spec k 44); auto. destruct (Hr k r eq_refl). contradiction.
      - inversion Hd' as [|? ? Hk _]; subst. cbn. destruct (Z.eqb_spec k 44); auto. unfold digit in Hk. lia. }
    rewrite IH by auto. auto.
Qed.
(** A number without leading zeros and with more digits is larger *)
Lemma longer_larger : forall ds es, ds <> [] -> Forall digit ds -> Forall digit es ->
  (length es = 1%nat \/ exists c t, es = c :: t /\ c <> 48) -> (length ds < length es)%nat -> value ds < value es.
Proof.
  intros ds es Hne Hd He Hz HL. destruct Hz as [Hz | (c & t & -> & Hc)].
  - destruct ds; [contradiction | cbn in HL; lia].
  - inversion He as [|? ? Hc' He']; subst. rewrite value_cons. pose proof (value_bound ds Hd). pose proof (value_bound t He').
    cbn [length] in HL. assert (10 ^ Z.of_nat (length ds) <= 10 ^ Z.of_nat (length t)) by (apply Z.pow_le_mono_r; lia).
    unfold digit in Hc'. nia.
Qed.
Lemma compare_digits : forall f ds es r1 r2 d x, ds <> [] -> es <> [] -> Forall digit ds -> Forall digit es ->
  after_number r1 -> after_number r2 -> compare_loop f (ds ++ r1) (es ++ r2) d = Some x ->
  value ds <> value es -> Z.sgn x = Z.sgn (value ds - value es).
Proof.
  intros f ds es r1 r2 d x N1 N2 D1 D2 A1 A2 H Hv. destruct f as [|f]; [discriminate|].
  assert (HD : forall (us r : list Z), us <> [] -> Forall digit us -> isdigit (hd0 (us ++ r)) = true).
  { intros [|k us] r Hu HU; [contradiction|]. inversion HU; subst. apply isdigit_digit. auto. }
  pose proof (compare_num _ _ _ _ _ (HD es r2 N2 D2) (HD ds r1 N1 D1) H) as C. cbv zeta in C.
  destruct (skip_zeros_digits ds r1 N1 D1 A1) as (z1 & ds' & S1 & M1 & E1 & V1 & W1).
  destruct (skip_zeros_digits es r2 N2 D2 A2) as (z2 & es' & S2 & M2 & E2 & V2 & W2).
  rewrite S1, S2 in C. cbn [fst snd] in C. rewrite !take_num_digits in C by auto. cbn [fst snd] in C.
  rewrite <- V1, <- V2 in *.
  destruct (Nat.ltb_spec (length ds') (length es')) as [L1|L1].
  { subst x. pose proof (longer_larger ds' es' M1 E1 E2 W2 L1). cbn [Z.sgn]. lia. }
  destruct (Nat.ltb_spec (length es') (length ds')) as [L2|L2].
  { subst x. pose proof (longer_larger es' ds' M2 E2 E1 W1 L2). cbn [Z.sgn]. lia. }
  assert (L : length ds' = length es') by lia.
  pose proof (fdiff_lexz ds' es' L) as F. rewrite (value_lex ds' es' E1 E2 L) in F.
  destruct (Z.eqb_spec (fdiff 0 ds' es') 0) as [F0|F0]; [rewrite F0 in F; cbn [Z.sgn] in F; lia|]. subst x. auto.
Qed.

(** * Text without digits *)
Lemma toks_nodigit : forall s n, Forall (fun c => ~ digit c) s -> (length s <= n)%nat -> toks n s = map Chr s.
Proof.
  induction s as [|c s IH]; intros n H Hn; [destruct n; reflexivity|]. destruct n; [cbn in Hn; lia|].
  inversion H as [|? ? Hc H']; subst. rewrite toks_chr by (apply isdigit_non; auto). cbn [map]. f_equal. apply IH; auto. cbn in Hn; lia.
Qed.
Lemma pk_chr : forall s, pk (map Chr s) = map lower s.
Proof. induction s; cbn; auto. f_equal. auto. Qed.
