(** Proofs about name lookup, brackets and numerals. *)
From Coq Require Import ZArith List Bool Lia.
Import ListNotations.
From Verif Require Import Bits UtfModel MiscModel MiscSpec.
Local Open Scope Z_scope.

Definition ff (nocase : bool) : Z -> Z := if nocase then tolower else keep.
Lemma fold_map : forall nc s, fold nc s = map (ff nc) s.
Proof. intros [|] s; simpl; auto. unfold keep. symmetry. apply map_id. Qed.
Lemma same_iff : forall f c s, same f c s = true <-> map f c = map f s.
Proof.
  induction c as [|a c IH]; intros [|b s]; simpl; split; intros H; try discriminate; auto.
  - apply andb_true_iff in H. destruct H as [H1 H2]. apply Z.eqb_eq in H1. apply IH in H2. congruence.
  - injection H as H1 H2. apply andb_true_iff. split; [apply Z.eqb_eq; auto | apply IH; auto].
Qed.
Lemma starts_iff : forall f s c, starts f c s = true <-> exists r, map f c = map f s ++ r.
Proof.
  induction s as [|b s IH]; intros [|a c]; simpl; split; intros H; try discriminate; eauto.
  - destruct H as (r & H). discriminate.
  - apply andb_true_iff in H. destruct H as [H1 H2]. apply Z.eqb_eq in H1. apply IH in H2.
    destruct H2 as (r & H2). exists r. congruence.
  - destruct H as (r & H). injection H as H1 H2. apply andb_true_iff.
    split; [apply Z.eqb_eq; auto | apply IH; eauto].
Qed.
Lemma tolower_idem : forall c, tolower (tolower c) = tolower c.
Proof.
  intros c. unfold tolower. destruct (65 <=? c) eqn:E1, (c <=? 90) eqn:E2; cbn [andb]; rewrite ?E1, ?E2; cbn [andb]; auto.
  destruct (65 <=? c + 32) eqn:E3, (c + 32 <=? 90) eqn:E4; cbn [andb]; auto; zb.
Qed.

(** The match condition of the first loop *)
Definition hit (exact nocase : bool) (key name : list Z) : Prop :=
  if exact then names nocase key name else abbreviates nocase key name.
Lemma cond1_iff : forall exact nc c s, s <> [] -> cond1 exact nc c s = true <-> hit exact nc s c.
Proof.
  intros exact nc c s Hs. unfold cond1, hit, names, abbreviates. rewrite !fold_map.
  assert (X : (if nc then (if exact then same tolower c s else starts tolower c s)
               else if exact then same keep c s else starts keep c s) =
              (if exact then same (ff nc) c s else starts (ff nc) c s)) by (destruct nc, exact; reflexivity).
  rewrite X. rewrite andb_true_iff.
  assert (Y : (if exact then same (ff nc) c s else starts (ff nc) c s) = true -> (tolower (at_ c 0) =? tolower (at_ s 0)) = true).
  { intros H. assert (exists r, map (ff nc) c = map (ff nc) s ++ r) as (r & E).
    { destruct exact; [apply same_iff in H; exists []; rewrite app_nil_r; auto | apply starts_iff; auto]. }
    destruct s as [|b s]; [contradiction|]. destruct c as [|a c]; [discriminate|].
    simpl in E. injection E as E _. apply Z.eqb_eq. unfold at_; simpl.
    destruct nc; simpl in E; [congruence | unfold keep in E; congruence]. }
  split.
  - intros [_ H]. destruct exact; [apply same_iff in H; auto | apply starts_iff in H; auto].
  - intros H. assert (Z0 : (if exact then same (ff nc) c s else starts (ff nc) c s) = true).
    { destruct exact; [apply same_iff; auto | apply starts_iff; auto]. }
    auto.
Qed.
Lemma cond2_iff : forall c s, s <> [] -> (at_ c 0 =? at_ s 0) && starts keep c s = true <-> abbreviates false s c.
Proof.
  intros c s Hs. rewrite andb_true_iff. unfold abbreviates. cbn [fold].
  assert (M : forall x, map keep x = x) by (intros; apply map_id).
  rewrite starts_iff, !M. split; [intros [_ H]; auto|]. intros (r & ->). split; eauto.
  destruct s; [contradiction|]. apply Z.eqb_refl.
Qed.

(** The first loop: the first match and whether there is another *)
Lemma pass1_ok : forall exact nc s t i index, s <> [] -> 0 <= i -> (index = -1 \/ 0 <= index) ->
  let hits c := hit exact nc s c in
  (index = -1 ->
    (pass1 exact nc t s i index = (-1, false) /\ Forall (fun c => ~ hits c) t) \/
    (exists t1 c t2, t = t1 ++ c :: t2 /\ Forall (fun c => ~ hits c) t1 /\ hits c /\
      ((pass1 exact nc t s i index = (i + Z.of_nat (length t1), false) /\ Forall (fun c => ~ hits c) t2) \/
       (pass1 exact nc t s i index = (i + Z.of_nat (length t1), true) /\ Exists hits t2)))) /\
  (0 <= index ->
    (pass1 exact nc t s i index = (index, false) /\ Forall (fun c => ~ hits c) t) \/
    (pass1 exact nc t s i index = (index, true) /\ Exists hits t)).
Proof.
  intros exact nc s t. induction t as [|c t IH]; intros i index Hs Hi Hx hits.
  - split; intros H; left; simpl; subst; auto.
  - cbn [pass1]. destruct (cond1 exact nc c s) eqn:E.
    + assert (Hc : hits c) by (apply cond1_iff; auto).
      split; intros H.
      * right. exists [], c, t. split; [reflexivity|]. split; [constructor|]. split; auto.
        destruct (index <? 0) eqn:E2; [|zb].
        destruct (IH (i + 1) i Hs ltac:(lia) ltac:(lia)) as [_ IH2].
        destruct (IH2 Hi) as [[H1 H2] | [H1 H2]]; [left | right]; simpl; rewrite Z.add_0_r; auto.
      * destruct (index <? 0) eqn:E2; [zb|]. right. auto.
    + assert (Hc : ~ hits c) by (intros H; apply cond1_iff in H; [congruence | auto]).
      destruct (IH (i + 1) index Hs ltac:(lia) Hx) as [IH1 IH2].
      split; intros H.
      * destruct (IH1 H) as [[H1 H2] | (t1 & d & t2 & -> & H1 & H2 & H3)]; [left; auto|].
        right. exists (c :: t1), d, t2. split; [reflexivity|]. split; [auto|]. split; auto.
        replace (i + Z.of_nat (length (c :: t1))) with (i + 1 + Z.of_nat (length t1)) by (simpl; lia). exact H3.
      * destruct (IH2 H) as [[H1 H2] | [H1 H2]]; [left | right]; auto.
Qed.
(** The second loop *)
Lemma pass2_ok : forall s t i index, s <> [] -> 0 <= i -> (index = -1 \/ 0 <= index) ->
  let hits c := abbreviates false s c in
  (index = -1 ->
    (pass2 t s i index = Some (-1) /\ Forall (fun c => ~ hits c) t) \/
    (exists t1 c t2, t = t1 ++ c :: t2 /\ Forall (fun c => ~ hits c) t1 /\ hits c /\
       ((c = s /\ pass2 t s i index = Some (i + Z.of_nat (length t1))) \/
        (c <> s /\ Forall (fun c => ~ hits c) t2 /\ pass2 t s i index = Some (i + Z.of_nat (length t1))) \/
        (c <> s /\ Exists hits t2 /\ pass2 t s i index = None)))) /\
  (0 <= index ->
    (pass2 t s i index = Some index /\ Forall (fun c => ~ hits c) t) \/
    (pass2 t s i index = None /\ Exists hits t)).
Proof.
  intros s t. induction t as [|c t IH]; intros i index Hs Hi Hx hits.
  - split; intros H; left; simpl; subst; auto.
  - cbn [pass2]. destruct ((at_ c 0 =? at_ s 0) && starts keep c s) eqn:E.
    + assert (Hc : hits c) by (apply cond2_iff; auto).
      split; intros H.
      * right. exists [], c, t. split; [reflexivity|]. split; [constructor|]. split; auto.
        destruct (index <? 0) eqn:E2; [|zb]. simpl length. rewrite Z.add_0_r.
        assert (Hlen : (length s =? length c)%nat = true <-> c = s).
        { rewrite Nat.eqb_eq. destruct Hc as (r & Hr). cbn [fold] in Hr. subst c. rewrite app_length. split.
          - intros L. destruct r; [apply app_nil_r | simpl in L; lia].
          - intros L. destruct r; [simpl; lia|]. exfalso. rewrite <- (app_nil_r s) in L at 2. apply app_inv_head in L. discriminate. }
        destruct (length s =? length c)%nat eqn:E3.
        -- left. split; auto. apply Hlen; auto.
        -- right. assert (Hne : c <> s) by (intros F; apply Hlen in F; discriminate).
           destruct (IH (i + 1) i Hs ltac:(lia) ltac:(lia)) as [_ IH2].
           destruct (IH2 Hi) as [[H1 H2] | [H1 H2]]; [left | right]; auto.
      * destruct (index <? 0) eqn:E2; [zb|]. right. auto.
    + assert (Hc : ~ hits c) by (intros H; apply cond2_iff in H; [congruence | auto]).
      destruct (IH (i + 1) index Hs ltac:(lia) Hx) as [IH1 IH2].
      split; intros H.
      * destruct (IH1 H) as [[H1 H2] | (t1 & d & t2 & -> & H1 & H2 & H3)]; [left; auto|].
        right. exists (c :: t1), d, t2. split; [reflexivity|]. split; [auto|]. split; auto.
        replace (i + Z.of_nat (length (c :: t1))) with (i + 1 + Z.of_nat (length t1)) by (simpl; lia). exact H3.
      * destruct (IH2 H) as [[H1 H2] | [H1 H2]]; [left | right]; auto.
Qed.

(** ** Brackets *)
Lemma balance_plain : forall c t n q, ~ special c -> balance (c :: t) n q = balance t n q.
Proof.
  intros c t n q H. unfold special in H. cbn [In] in H. cbn [balance].
  repeat match goal with |- context [?a =? ?b] => destruct (Z.eqb_spec a b); [exfalso; apply H; subst; tauto|]; cbn [orb] end.
  reflexivity.
Qed.
Lemma balance_plains : forall w t n q, Forall (fun c => ~ special c) w -> balance (w ++ t) n q = balance t n q.
Proof. induction w; intros t n q H; auto. inversion H; subst. cbn [app]. rewrite balance_plain; auto. Qed.
Lemma open_text_balance : forall st s, open_text st s ->
  Forall (fun d => In d [125; 41; 93]) st /\
  exists k, forall t n q, balance (s ++ t) n q = balance t (n + Z.of_nat (length st)) (q + 2 * k).
Proof.
  induction 1 as [| st s c H [IHs (k & IH)] Hc | st s c H [IHs (k & IH)] | st s q0 w H [IHs (k & IH)] Hq Hw
                 | st s c d H [IHs (k & IH)] Hc | st s d H [IHs (k & IH)]].
  - split; [constructor|]. exists 0. intros. f_equal; simpl; lia.
  - split; auto. exists k. intros t n q. rewrite <- app_assoc, IH. simpl. apply balance_plain; auto.
  - split; auto. exists k. intros t n q. rewrite <- app_assoc, IH. reflexivity.
  - split; auto. exists (k + 1). intros t n q. rewrite <- app_assoc, IH. cbn [app].
    assert (Q : forall t n q, balance (q0 :: t) n q = balance t n (q + 1)) by (intros; destruct Hq as [<- | [<- | []]]; reflexivity).
    rewrite Q, <- app_assoc, balance_plains by auto. cbn [app]. rewrite Q. f_equal. lia.
  - split.
    + constructor; auto. unfold closer in Hc. cbn [In].
      destruct (c =? 123); [injection Hc as <-; tauto|]. destruct (c =? 40); [injection Hc as <-; tauto|].
      destruct (c =? 91); [injection Hc as <-; tauto | discriminate].
    + exists k. intros t n q. rewrite <- app_assoc, IH. cbn [app].
      assert (Q : balance (c :: t) (n + Z.of_nat (length st)) (q + 2 * k) = balance t (n + Z.of_nat (length st) + 1) (q + 2 * k)).
      { unfold closer in Hc. destruct (c =? 123) eqn:X1; [apply Z.eqb_eq in X1; subst; reflexivity|].
        destruct (c =? 40) eqn:X2; [apply Z.eqb_eq in X2; subst; reflexivity|].
        destruct (c =? 91) eqn:X3; [apply Z.eqb_eq in X3; subst; reflexivity | discriminate]. }
      rewrite Q. f_equal. simpl length. lia.
  - inversion IHs as [|? ? Hd Hst]; subst. split; auto. exists k. intros t n q.
    rewrite <- app_assoc, IH. cbn [app].
    assert (Q : forall m r, balance (d :: t) m r = balance t (m - 1) r) by (intros; destruct Hd as [<- | [<- | [<- | []]]]; reflexivity).
    rewrite Q. f_equal. simpl length. lia.
Qed.

(** ** Numerals *)
Lemma digit_value_is : forall base c v, base <= 36 -> digit_is base c v -> digit_value c = v /\ digit_value c <? base = true.
Proof.
  intros base c v Hb (Hv & H). unfold digit_value.
  destruct H as [[-> H] | [[-> H] | [-> H]]].
  - destruct (48 <=? 48 + v) eqn:E1, (48 + v <=? 57) eqn:E2; cbn [andb]; zb.
  - destruct (48 <=? 87 + v) eqn:E1, (87 + v <=? 57) eqn:E2; cbn [andb]; try zb.
    destruct (97 <=? 87 + v) eqn:E3, (87 + v <=? 122) eqn:E4; cbn [andb]; zb.
  - destruct (48 <=? 55 + v) eqn:E1, (55 + v <=? 57) eqn:E2; cbn [andb]; try zb.
    destruct (97 <=? 55 + v) eqn:E3, (55 + v <=? 122) eqn:E4; cbn [andb]; try zb.
    destruct (65 <=? 55 + v) eqn:E5, (55 + v <=? 90) eqn:E6; cbn [andb]; zb.
Qed.
Lemma digits_numeral : forall base s n, base <= 36 -> numeral base s n -> 0 < base ->
  forall r acc, digits base (s ++ r) acc = digits base r (acc * base ^ Z.of_nat (length s) + n).
Proof.
  intros base s n Hb H Hp. induction H as [c v Hd | s n c v H IH Hd]; intros r acc.
  - destruct (digit_value_is base c v Hb Hd) as [E1 E2]. cbn [app digits]. rewrite E2, E1.
    f_equal. change (Z.of_nat (length [c])) with 1. lia.
  - rewrite <- app_assoc, IH. destruct (digit_value_is base c v Hb Hd) as [E1 E2].
    cbn [app digits]. rewrite E2, E1. f_equal. rewrite app_length, Nat2Z.inj_add, Z.pow_add_r by lia.
    change (Z.of_nat (length [c])) with 1. rewrite Z.pow_1_r. ring.
Qed.
Lemma numeral_first : forall base s n, numeral base s n -> exists c r v, s = c :: r /\ digit_is base c v.
Proof.
  induction 1 as [c v Hd | s n c v H (c0 & r & v0 & -> & H0) Hd]; [exists c, [], v; auto|].
  exists c0, (r ++ [c]), v0. auto.
Qed.
Lemma numeral_digits : forall base s n, numeral base s n -> Forall (fun c => exists v, digit_is base c v) s.
Proof. induction 1; [constructor; eauto|]. apply Forall_app. split; eauto. Qed.
Lemma numeral_nonneg : forall base s n, 0 < base -> numeral base s n -> 0 <= n.
Proof. intros base s n Hb H. induction H as [c v Hd | s n c v H IH Hd]; destruct Hd as [Hd _]; nia. Qed.

Lemma digit_char_is : forall base d, 2 <= base <= 36 -> 0 <= d < base -> digit_is base (digit_char d) d.
Proof.
  intros base d Hb Hd. split; auto. unfold digit_char. destruct (d <? 10) eqn:E; [left | right; left]; zb.
Qed.
Lemma numeral_cons : forall base s n c v, numeral base s n -> digit_is base c v ->
  numeral base (c :: s) (v * base ^ Z.of_nat (length s) + n).
Proof.
  intros base s n c v H Hd. induction H as [c' v' Hd' | s n c' v' H IH Hd'].
  - change [c; c'] with ([c] ++ [c']). change (Z.of_nat (length [c'])) with 1. rewrite Z.pow_1_r.
    apply num_more; auto. constructor; auto.
  - replace (v * base ^ Z.of_nat (length (s ++ [c'])) + (n * base + v'))
      with ((v * base ^ Z.of_nat (length s) + n) * base + v').
    2:{ rewrite app_length, Nat2Z.inj_add, Z.pow_add_r by lia. change (Z.of_nat (length [c'])) with 1. rewrite Z.pow_1_r. ring. }
    rewrite app_comm_cons. apply num_more; auto.
Qed.
(** The accumulator holds the digits already made *)
Lemma udigits_app : forall fuel base n acc, udigits fuel base n acc = udigits fuel base n [] ++ acc.
Proof.
  induction fuel as [|fuel IH]; intros base n acc; cbn [udigits]; [reflexivity|].
  destruct (n / base =? 0); [reflexivity|].
  rewrite IH, (IH base (n / base) [digit_char (n mod base)]), <- app_assoc. reflexivity.
Qed.
Lemma udigits_numeral : forall fuel base n, 2 <= base <= 36 -> 0 <= n -> n < 2 ^ Z.of_nat fuel -> (0 < fuel)%nat ->
  numeral base (udigits fuel base n []) n.
Proof.
  induction fuel as [|fuel IH]; intros base n Hb Hn Hlt Hf; [lia|].
  cbn [udigits]. pose proof (Z.mod_pos_bound n base ltac:(lia)) as Hm. pose proof (Z.div_mod n base ltac:(lia)) as Hdm.
  destruct (n / base =? 0) eqn:E.
  - apply Z.eqb_eq in E. replace n with (n mod base) at 2 by lia. constructor. apply digit_char_is; auto.
  - apply Z.eqb_neq in E. rewrite udigits_app.
    replace n with (n / base * base + n mod base) at 3 by lia.
    apply num_more; [|apply digit_char_is; auto].
    assert (Hq : 0 <= n / base) by (apply Z.div_pos; lia).
    rewrite Nat2Z.inj_succ, Z.pow_succ_r in Hlt by lia.
    assert (Hq2 : n / base < 2 ^ Z.of_nat fuel).
    { apply Z.div_lt_upper_bound; [lia|]. pose proof (Z.pow_pos_nonneg 2 (Z.of_nat fuel)). nia. }
    apply IH; auto. destruct fuel; [|lia]. simpl in Hlt. assert (n / base = 0) by (apply Z.div_small; lia). lia.
Qed.
Lemma print_u_numeral : forall base n, 2 <= base <= 36 -> 0 <= n < two64 -> numeral base (print_u base n) n.
Proof.
  intros base n Hb Hn. apply udigits_numeral; [lia | lia | | lia].
  change (2 ^ Z.of_nat 64) with two64. lia.
Qed.

(** strto on a numeral followed by something that is not a digit *)
Definition stops (base : Z) (r : list Z) : Prop := forall c r', r = c :: r' -> (digit_value c <? base) = false.
Lemma digit_not_space : forall base c v, digit_is base c v -> isspace c = false.
Proof.
  intros base c v (Hv & H). unfold isspace, JsonModel.isspace.
  destruct (c =? 32) eqn:E1, (9 <=? c) eqn:E2, (c <=? 13) eqn:E3; simpl; auto; zb.
Qed.
Lemma digits_stop : forall base r acc, stops base r -> digits base r acc = (acc, r).
Proof. intros base [|c r] acc H; simpl; auto. rewrite (H c r eq_refl). reflexivity. Qed.
(** A numeral that is not the 0 of a 0x *)
Lemma strto_numeral : forall base s n r, 2 <= base <= 36 ->
  numeral base s n -> stops base r -> strto base (s ++ r) = Some (false, n, r) \/
  (base = 16 /\ exists x r', s = [48] /\ r = x :: r' /\ (x = 120 \/ x = 88)).
Proof.
  intros base s n r Hb Hs Hr.
  destruct (numeral_first _ _ _ Hs) as (c & s' & v & -> & Hd).
  destruct (digit_value_is base c v ltac:(lia) Hd) as [Ev El].
  unfold strto. cbn [app skip_space]. rewrite (digit_not_space base c v Hd).
  assert (c <> 45 /\ c <> 43) as [N1 N2] by (destruct Hd as (? & ?); lia).
  destruct (Z.eqb_spec c 45); [contradiction|]. destruct (Z.eqb_spec c 43); [contradiction|].
  (* the digits after the optional prefix *)
  assert (Hend : forall u, u = c :: s' ++ r -> match u with
            | c0 :: _ => if digit_value c0 <? base then let '(v0, r0) := digits base u 0 in Some (false, v0, r0) else None
            | [] => None end = Some (false, n, r)).
  { intros u ->. rewrite El. change (c :: s' ++ r) with ((c :: s') ++ r).
    rewrite (digits_numeral base _ n ltac:(lia) Hs ltac:(lia)), digits_stop by auto. reflexivity. }
  destruct (s' ++ r) as [|x t'] eqn:Et; [left; exact (Hend _ eq_refl)|].
  destruct t' as [|d t'']; [left; exact (Hend _ eq_refl)|].
  destruct ((c =? 48) && (base =? 16) && ((x =? 120) || (x =? 88)) && (digit_value d <? 16)) eqn:Ex; [|left; exact (Hend _ eq_refl)].
  apply andb_true_iff in Ex. destruct Ex as [Ex _]. apply andb_true_iff in Ex. destruct Ex as [Eb Ex].
  apply andb_true_iff in Eb. destruct Eb as [Ec Eb].
  apply Z.eqb_eq in Eb. apply Z.eqb_eq in Ec. subst base c.
  assert (Hx : x = 120 \/ x = 88) by (apply orb_true_iff in Ex; destruct Ex as [Ex|Ex]; apply Z.eqb_eq in Ex; auto).
  destruct s' as [|x' s''].
  - right. split; auto. exists x, (d :: t''). auto.
  - cbn [app] in Et. injection Et as -> _. exfalso.
    pose proof (numeral_digits _ _ _ Hs) as Hall. inversion Hall as [|? ? _ H2]; subst. inversion H2 as [|? ? (v' & Hv' & H') _]; subst. lia.
Qed.
