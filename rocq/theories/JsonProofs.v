(** The tokenizer: termination and the nesting invariant. *)
From Coq Require Import ZArith List Bool Lia.
From Verif Require Import Bits UtfModel CodecModel TreeModel JsonModel JsonSpec.
Import ListNotations.
Local Open Scope Z_scope.

(** ** Array primitives *)
Lemma upd_nth : forall l i f j, nth_error (upd l i f) j =
  if Nat.eqb j i then option_map f (nth_error l j) else nth_error l j.
Proof.
  intros l i f j. unfold upd. destruct (nth_error l i) as [t|] eqn:Hi.
  - assert (Li : (i < length l)%nat) by (apply nth_error_Some; congruence).
    destruct (Nat.eqb_spec j i) as [->|N].
    + rewrite nth_error_app2 by (rewrite firstn_length; lia).
      rewrite firstn_length, Nat.min_l, Nat.sub_diag by lia. rewrite Hi. reflexivity.
    + destruct (Nat.lt_ge_cases j i).
      * rewrite nth_error_app1 by (rewrite firstn_length; lia).
        rewrite <- (firstn_skipn i l) at 2. rewrite nth_error_app1 by (rewrite firstn_length; lia). reflexivity.
      * rewrite nth_error_app2 by (rewrite firstn_length; lia).
        rewrite firstn_length, Nat.min_l by lia.
        rewrite <- (firstn_skipn (S i) l) at 2. rewrite nth_error_app2 by (rewrite firstn_length; lia).
        rewrite firstn_length, Nat.min_l by lia.
        replace (j - i)%nat with (S (j - S i)) by lia. reflexivity.
  - destruct (Nat.eqb_spec j i) as [->|N]; auto. rewrite Hi. reflexivity.
Qed.
Lemma upd_length : forall l i f, length (upd l i f) = length l.
Proof.
  intros. unfold upd. destruct (nth_error l i) eqn:Hi; auto.
  assert (i < length l)%nat by (apply nth_error_Some; congruence).
  rewrite app_length. cbn [length]. rewrite firstn_length, skipn_length. lia.
Qed.
Lemma bump_length : forall s l, length (bump s l) = length l.
Proof. intros [i|] l; simpl; auto using upd_length. Qed.
Lemma bump_nth : forall s l j, nth_error (bump s l) j =
  match s with Some i => if Nat.eqb j i then option_map incr_size (nth_error l j) else nth_error l j
  | None => nth_error l j end.
Proof. intros [i|] l j; simpl; auto using upd_nth. Qed.

Lemma find_open_some : forall n l i, find_open n l = Some i ->
  (i < n)%nat /\ (exists t, nth_error l i = Some t /\ is_open t = true) /\
  forall j t, (i < j < n)%nat -> nth_error l j = Some t -> is_open t = false.
Proof.
  induction n; intros l i H; simpl in H; [discriminate|].
  destruct (nth_error l n) as [t|] eqn:N.
  - destruct (is_open t) eqn:O.
    + injection H as <-. repeat split; eauto. intros; lia.
    + apply IHn in H as (A & B & C). repeat split; auto. intros j u Hj Hn.
      destruct (Nat.eq_dec j n) as [->|]; [congruence|]. apply (C j); auto; lia.
  - apply IHn in H as (A & B & C). repeat split; auto. intros j u Hj Hn.
    destruct (Nat.eq_dec j n) as [->|]; [congruence|]. apply (C j); auto; lia.
Qed.
Lemma find_open_none : forall n l, find_open n l = None ->
  forall j t, (j < n)%nat -> nth_error l j = Some t -> is_open t = false.
Proof.
  induction n; intros l H j t Hj Hn; [lia|]. simpl in H.
  destruct (nth_error l n) as [u|] eqn:N.
  - destruct (is_open u) eqn:O; [discriminate|].
    destruct (Nat.eq_dec j n) as [->|]; [congruence|]. eapply IHn; eauto; lia.
  - destruct (Nat.eq_dec j n) as [->|]; [congruence|]. eapply IHn; eauto; lia.
Qed.
(** only openness matters *)
Lemma find_open_ext : forall n l l', (forall j, (j < n)%nat ->
    option_map is_open (nth_error l j) = option_map is_open (nth_error l' j)) -> find_open n l = find_open n l'.
Proof.
  induction n; intros l l' H; simpl; auto.
  pose proof (H n ltac:(lia)) as Hn. rewrite (IHn l l') by (intros; apply H; lia).
  destruct (nth_error l n), (nth_error l' n); simpl in Hn; try discriminate; auto.
  injection Hn as ->. auto.
Qed.
Lemma find_open_bump : forall n s l, find_open n (bump s l) = find_open n l.
Proof.
  intros. apply find_open_ext. intros j _. rewrite bump_nth. destruct s as [i|]; auto.
  destruct (Nat.eqb j i); auto. destruct (nth_error l j); auto.
Qed.
Lemma find_open_app : forall n l m, (n <= length l)%nat -> find_open n (l ++ m) = find_open n l.
Proof. intros. apply find_open_ext. intros j Hj. rewrite nth_error_app1 by lia. auto. Qed.
Lemma find_open_cut : forall n m l, (m <= n)%nat ->
  (forall j t, (m <= j < n)%nat -> nth_error l j = Some t -> is_open t = false) ->
  find_open n l = find_open m l.
Proof.
  induction n; intros m l Hm H.
  - replace m with 0%nat by lia. auto.
  - destruct (Nat.eq_dec m (S n)) as [->|]; auto. simpl.
    rewrite (IHn m) by (auto; try lia; intros; eapply H; eauto; lia).
    destruct (nth_error l n) eqn:N; auto. rewrite (H n t) by (auto; lia). auto.
Qed.

(** ** Scanners stay inside the text *)
Lemma str_scan_bound : forall l n, str_scan l = inl n -> nth_error l n = Some 34.
Proof.
  intros l. assert (H : forall k l, (length l <= k)%nat -> forall n, str_scan l = inl n -> nth_error l n = Some 34).
  { clear l. induction k; intros l HL n H.
    - destruct l; [discriminate|simpl in HL; lia].
    - destruct l as [|c r]; [discriminate|]. cbn [str_scan] in H. cbn [length] in HL.
      destruct (c =? 34) eqn:C; [injection H as <-; apply Z.eqb_eq in C; subst; reflexivity|].
      destruct (c =? 92).
      + destruct r as [|d r']; [discriminate|]. cbn [length] in HL.
        destruct (_ || _) in H; [|discriminate].
        destruct (str_scan r') as [m|] eqn:S; [|discriminate]. injection H as <-. cbn. apply IHk; auto; lia.
      + destruct (str_scan r) as [m|] eqn:S; [|discriminate]. injection H as <-. cbn. apply IHk; auto; lia. }
  intros. eapply H; eauto.
Qed.
Lemma prim_scan_bound : forall st l n, prim_scan st l = inl n -> (n <= length l)%nat.
Proof.
  induction l as [|c r IH]; intros n H; cbn [prim_scan] in H.
  - destruct st; [discriminate|]. injection H as <-. lia.
  - destruct (_ || _) in H; [injection H as <-; simpl; lia|].
    destruct (_ || _) in H; [discriminate|].
    destruct (prim_scan st r) as [m|]; [|discriminate]. injection H as <-. specialize (IH m eq_refl). simpl; lia.
Qed.

(** ** The invariant *)
Definition closed (t : tok) : Prop := ten t <> -1.
Definition tok_ok (js : list Z) (P : Z) (t : tok) : Prop :=
  0 <= tst t < P /\ (ten t = -1 \/ tst t <= ten t <= P) /\
  (ten t = -1 -> container t) /\
  (tty t = Obj -> char_at_ofs js (tst t) 123 /\ (closed t -> char_at_ofs js (ten t - 1) 125)) /\
  (tty t = Arr -> char_at_ofs js (tst t) 91 /\ (closed t -> char_at_ofs js (ten t - 1) 93)) /\
  (tty t = Str -> char_at_ofs js (tst t - 1) 34 /\ char_at_ofs js (ten t) 34).

Record inv (js : list Z) (s : pst) : Prop := {
  i_pos : (pos s <= length js)%nat;
  i_tok : forall i t, nth_error (toks s) i = Some t -> tok_ok js (Z.of_nat (pos s)) t;
  i_order : forall i j a b, (i < j)%nat -> nth_error (toks s) i = Some a -> nth_error (toks s) j = Some b -> tst a < tst b;
  i_pair : forall i j a b, (i < j)%nat -> nth_error (toks s) i = Some a -> nth_error (toks s) j = Some b ->
    (closed a /\ ten a <= tst b) \/ (container a /\ (ten a = -1 \/ (closed b /\ ten b < ten a)));
  i_super : super s = find_open (length (toks s)) (toks s);
  i_root : forall j b, nth_error (toks s) j = Some b -> tpar b = -1 ->
    forall i a, (i < j)%nat -> nth_error (toks s) i = Some a -> closed a /\ ten a <= tst b;
  i_parent : forall j b, nth_error (toks s) j = Some b -> tpar b <> -1 ->
    exists k p, tpar b = Z.of_nat k /\ (k < j)%nat /\ nth_error (toks s) k = Some p /\ container p /\
      (ten p = -1 \/ (closed b /\ ten b < ten p)) /\
      forall i a, (k < i < j)%nat -> nth_error (toks s) i = Some a -> closed a /\ ten a <= tst b;
  i_size : forall i t, nth_error (toks s) i = Some t -> container t -> tsz t = nchildren (toks s) i;
  i_first : at_ js 0 = 34 -> (toks s = [] /\ pos s = 0%nat) \/ (exists t, nth_error (toks s) 0 = Some t /\ tty t = Str)
}.

Lemma inv0 : forall js, inv js pst0.
Proof.
  intros js. constructor; cbn; auto; try (intros; destruct i; discriminate); try (intros; destruct j; discriminate).
  lia.
Qed.

Lemma nchildren_app : forall l m i, nchildren (l ++ m) i = nchildren l i + nchildren m i.
Proof. intros. unfold nchildren. rewrite filter_app, app_length. lia. Qed.
Lemma filter_map_len : forall A (f g : A -> bool) l l', length l = length l' ->
  (forall j a b, nth_error l j = Some a -> nth_error l' j = Some b -> f a = g b) ->
  length (filter f l) = length (filter g l').
Proof.
  induction l as [|a l IH]; intros [|b l'] HL H; try discriminate; auto.
  cbn [filter]. rewrite (H 0%nat a b eq_refl eq_refl). injection HL as HL.
  assert (length (filter f l) = length (filter g l')) by (apply IH; auto; intros j; apply (H (S j))).
  destruct (g b); simpl; congruence.
Qed.
Lemma nchildren_bump : forall s l i, nchildren (bump s l) i = nchildren l i.
Proof.
  intros. unfold nchildren. f_equal. apply filter_map_len; [apply bump_length|].
  intros j a b Ha Hb. rewrite bump_nth, Hb in Ha. destruct s as [k|]; [|congruence].
  destruct (Nat.eqb j k); simpl in Ha; injection Ha as <-; auto.
Qed.
Lemma nchildren_upd_end : forall l k e i, nchildren (upd l k (set_end e)) i = nchildren l i.
Proof.
  intros. unfold nchildren. f_equal. apply filter_map_len; [apply upd_length|].
  intros j a b Ha Hb. rewrite upd_nth, Hb in Ha. destruct (Nat.eqb j k); simpl in Ha; injection Ha as <-; auto.
Qed.

(** a token of the new list is a token of the old one up to its size, or the appended one *)
Lemma bump_app_nth : forall s l t j u, nth_error (bump s (l ++ [t])) j = Some u ->
  (forall k, s = Some k -> (k < length l)%nat) ->
  (exists v, nth_error l j = Some v /\ (j < length l)%nat /\ tty u = tty v /\ tst u = tst v /\ ten u = ten v /\ tpar u = tpar v /\
     tsz u = tsz v + (match s with Some k => if Nat.eqb j k then 1 else 0 | None => 0 end)) \/
  (j = length l /\ u = t).
Proof.
  intros s l t j u H HS. rewrite bump_nth in H.
  assert (HJ : nth_error (l ++ [t]) j <> None).
  { destruct s; [destruct (Nat.eqb j n)|]; destruct (nth_error (l ++ [t]) j); simpl in *; congruence. }
  apply nth_error_Some in HJ. rewrite app_length in HJ. cbn [length] in HJ.
  destruct (Nat.eq_dec j (length l)) as [->|N].
  - right. split; auto. rewrite nth_error_app2, Nat.sub_diag in H by lia. cbn in H.
    destruct s as [k|]; [|congruence]. specialize (HS k eq_refl).
    destruct (Nat.eqb_spec (length l) k); [lia|congruence].
  - left. rewrite nth_error_app1 in H by lia. destruct (nth_error l j) as [v|] eqn:V;
      [|apply nth_error_None in V; lia].
    exists v. split; auto. split; [lia|].
    destruct s as [k|].
    + destruct (Nat.eqb j k); cbn in H; injection H as <-; cbn; repeat split; auto; lia.
    + injection H as <-. repeat split; auto; lia.
Qed.

(** Appending a token (with the bump of the parent) keeps the invariant. *)
Lemma inv_append : forall js s t P' sup idx cu,
  inv js s -> (pos s < P')%nat -> (P' <= length js)%nat ->
  tok_ok js (Z.of_nat P') t -> Z.of_nat (pos s) <= tst t ->
  tpar t = par_of (super s) -> tsz t = 0 ->
  sup = (if is_open t then Some (length (toks s)) else super s) ->
  (toks s = [] -> at_ js 0 = 34 -> pos s = 0%nat -> tty t = Str) ->
  inv js (mkP P' (bump (super s) (toks s ++ [t])) sup idx cu).
Proof.
  intros js s t P' sup idx cu I HP HL HT HS HPar HZ Hsup HF.
  assert (SK : forall k, super s = Some k -> (k < length (toks s))%nat).
  { intros k Hk. rewrite (i_super _ _ I) in Hk. apply find_open_some in Hk. tauto. }
  assert (SO : forall j a, nth_error (toks s) j = Some a -> is_open a = false -> closed a).
  { intros j a Ha O. destruct (i_tok _ _ I _ _ Ha) as (B & _). unfold is_open in O. unfold closed.
    destruct (tst a =? -1) eqn:X; [b2p; lia|]. simpl in O. b2p; auto. }
  assert (OC : forall j a, nth_error (toks s) j = Some a -> is_open a = true -> ten a = -1).
  { intros j a Ha O. unfold is_open in O. apply andb_true_iff in O as [_ O]. b2p; auto. }
  constructor; cbn [pos toks super index cur].
  - auto.
  - intros i u Hu. apply bump_app_nth in Hu; auto. destruct Hu as [(v & Hv & _ & A1 & A2 & A3 & _)|(-> & ->)]; auto.
    pose proof (i_tok _ _ I _ _ Hv) as (B1 & B2 & B3 & B4 & B5 & B6).
    unfold tok_ok, closed, container in *. rewrite A1, A2, A3. split; [lia|]; split; [destruct B2; [left|right]; lia|]; auto.
  - intros i j a b Hij Ha Hb. apply bump_app_nth in Ha; auto. apply bump_app_nth in Hb; auto.
    destruct Ha as [(v & Hv & Lv & A1 & A2 & A3 & _)|(-> & ->)].
    + rewrite A2. destruct Hb as [(w & Hw & _ & B1 & B2 & B3 & _)|(-> & ->)].
      * rewrite B2. apply (i_order _ _ I _ _ _ _ Hij Hv Hw).
      * destruct (i_tok _ _ I _ _ Hv). lia.
    + destruct Hb as [(w & Hw & Lw & B1 & B2 & B3 & _)|(-> & ->)]; lia.
  - intros i j a b Hij Ha Hb. apply bump_app_nth in Ha; auto. apply bump_app_nth in Hb; auto.
    unfold closed, container.
    destruct Ha as [(v & Hv & Lv & A1 & A2 & A3 & _)|(-> & ->)].
    + rewrite A1, A3. destruct Hb as [(w & Hw & _ & B1 & B2 & B3 & _)|(-> & ->)].
      * rewrite B2, B3. apply (i_pair _ _ I i j); auto.
      * destruct (i_tok _ _ I _ _ Hv) as (C1 & C2 & C3 & _).
        destruct C2 as [C2|C2]; [right; split; auto; apply C3; auto|left; split; lia].
    + destruct Hb as [(w & Hw & Lw & B1 & B2 & B3 & _)|(-> & ->)]; lia.
  - rewrite bump_length, find_open_bump, app_length. cbn [length]. rewrite Nat.add_1_r. cbn [find_open].
    rewrite nth_error_app2, Nat.sub_diag by lia. cbn [nth_error].
    rewrite find_open_app by lia. rewrite <- (i_super _ _ I). auto.
  - intros j b Hb HN i a Hij Ha. apply bump_app_nth in Ha; auto. apply bump_app_nth in Hb; auto.
    unfold closed.
    destruct Ha as [(v & Hv & Lv & A1 & A2 & A3 & _)|(-> & ->)].
    + rewrite A3. destruct Hb as [(w & Hw & _ & B1 & B2 & B3 & B4 & _)|(-> & ->)].
      * rewrite B2. apply (i_root _ _ I _ _ Hw ltac:(congruence) _ _ Hij Hv).
      * rewrite HPar in HN. destruct (super s) as [k|] eqn:SS; [simpl in HN; lia|].
        pose proof (i_super _ _ I) as X. rewrite SS in X. symmetry in X.
        pose proof (find_open_none _ _ X _ _ Lv Hv) as O. apply SO with (1 := Hv) in O.
        destruct (i_tok _ _ I _ _ Hv) as (C1 & C2 & _). unfold closed in O. split; auto; lia.
    + destruct Hb as [(w & Hw & Lw & _)|(-> & ->)]; lia.
  - intros j b Hb HN. apply bump_app_nth in Hb; auto.
    destruct Hb as [(w & Hw & Lw & B1 & B2 & B3 & B4 & _)|(-> & ->)].
    + rewrite B4 in HN. destruct (i_parent _ _ I _ _ Hw HN) as (k & p & K1 & K2 & K3 & K4 & K5 & K6).
      assert (exists p', nth_error (bump (super s) (toks s ++ [t])) k = Some p').
      { destruct (nth_error (bump (super s) (toks s ++ [t])) k) eqn:X; eauto.
        apply nth_error_None in X. rewrite bump_length, app_length in X. simpl in X. lia. }
      destruct H as [p' Hp']. exists k, p'.
      pose proof Hp' as Hq. apply bump_app_nth in Hq; auto.
      destruct Hq as [(q & Hq & _ & Q1 & Q2 & Q3 & _)|(-> & _)]; [|lia].
      rewrite K3 in Hq. injection Hq as <-. unfold closed, container in *. rewrite B4, B2, B3, Q1, Q3.
      split; [auto|]. split; [auto|]. split; [auto|]. split; [auto|]. split; [auto|].
      all: intros i a Hi Ha; apply bump_app_nth in Ha; auto;
        destruct Ha as [(v & Hv & _ & A1 & A2 & A3 & _)|(-> & ->)]; [rewrite ?A3|lia];
        apply (K6 i v); auto.
    + rewrite HPar in *. destruct (super s) as [k|] eqn:SS; [|simpl in HN; lia]. cbn [par_of] in *.
      pose proof (i_super _ _ I) as X. rewrite SS in X. symmetry in X. apply find_open_some in X as (X1 & (p & X2 & X3) & X4).
      exists k, (incr_size p). split; auto. split; auto. split.
      { rewrite bump_nth, Nat.eqb_refl, nth_error_app1, X2 by lia. auto. }
      pose proof (OC _ _ X2 X3) as OP. split.
      { destruct (i_tok _ _ I _ _ X2) as (_ & _ & C3 & _). unfold container in *. cbn. auto. }
      split; [left; cbn; auto|].
      intros i a Hi Ha. apply bump_app_nth in Ha; auto.
      destruct Ha as [(v & Hv & _ & A1 & A2 & A3 & _)|(-> & ->)]; [|lia].
      pose proof (X4 i v ltac:(lia) Hv) as O. apply SO with (1 := Hv) in O.
      destruct (i_tok _ _ I _ _ Hv) as (C1 & C2 & _). unfold closed in *. rewrite A3. split; auto; lia.
  - intros i u Hu Hc. rewrite nchildren_bump, nchildren_app.
    assert (N1 : nchildren [t] i = match super s with Some k => if Nat.eqb i k then 1 else 0 | None => 0 end).
    { unfold nchildren. cbn [filter]. rewrite HPar. destruct (super s) as [k|]; cbn [par_of].
      - destruct (Nat.eqb_spec i k) as [->|N]; [rewrite Z.eqb_refl; auto|].
        destruct (Z.of_nat k =? Z.of_nat i) eqn:Y; [b2p; lia|]. auto.
      - destruct (-1 =? Z.of_nat i) eqn:Y; [b2p; lia|]. auto. }
    apply bump_app_nth in Hu; auto.
    destruct Hu as [(v & Hv & _ & A1 & A2 & A3 & _ & A4)|(-> & ->)].
    + rewrite A4, N1. rewrite (i_size _ _ I i v) by (unfold container in *; rewrite <- ?A1; auto). auto.
    + rewrite HZ, N1. destruct (super s) as [k|] eqn:SS.
      * specialize (SK k eq_refl). destruct (Nat.eqb_spec (length (toks s)) k); [lia|].
        unfold nchildren. rewrite (proj2 (length_zero_iff_nil _)); auto.
        destruct (filter _ (toks s)) eqn:Fl; auto.
        assert (In t0 (filter (fun t1 => tpar t1 =? Z.of_nat (length (toks s))) (toks s))) by (rewrite Fl; left; auto).
        apply filter_In in H as [H1 H2]. apply In_nth_error in H1 as [m Hm]. b2p.
        destruct (i_parent _ _ I _ _ Hm ltac:(lia)) as (kk & pp & K1 & K2 & K3 & _).
        assert (m < length (toks s))%nat by (apply nth_error_Some; congruence). lia.
      * unfold nchildren. rewrite (proj2 (length_zero_iff_nil _)); auto.
        destruct (filter _ (toks s)) eqn:Fl; auto.
        assert (In t0 (filter (fun t1 => tpar t1 =? Z.of_nat (length (toks s))) (toks s))) by (rewrite Fl; left; auto).
        apply filter_In in H as [H1 H2]. apply In_nth_error in H1 as [m Hm]. b2p.
        destruct (i_parent _ _ I _ _ Hm ltac:(lia)) as (kk & pp & K1 & K2 & K3 & _).
        assert (m < length (toks s))%nat by (apply nth_error_Some; congruence). lia.
  - intros H34. right. destruct (i_first _ _ I H34) as [[E1 E2]|(t0 & E1 & E2)].
    + rewrite E1 in *. pose proof (i_super _ _ I) as X. rewrite E1 in X. cbn in X. rewrite X. cbn. eauto.
    + rewrite bump_nth, nth_error_app1 by (apply nth_error_Some; congruence). rewrite E1.
      destruct (super s) as [k|]; [destruct (Nat.eqb 0 k)|]; cbn; eauto.
Qed.

(** Extra size bumps of a token that is not a container keep the invariant (the case of an input that starts with a quote). *)
Lemma inv_bump_str : forall js s t, inv js s -> nth_error (toks s) 0 = Some t -> tty t = Str ->
  inv js (mkP (pos s) (bump (Some 0%nat) (toks s)) (super s) (index s) (cur s)).
Proof.
  intros js s t I H0 HT.
  assert (B : forall j u, nth_error (bump (Some 0%nat) (toks s)) j = Some u ->
    exists v, nth_error (toks s) j = Some v /\ tty u = tty v /\ tst u = tst v /\ ten u = ten v /\ tpar u = tpar v /\ (container u -> tsz u = tsz v)).
  { intros j u Hu. rewrite bump_nth in Hu. destruct (Nat.eqb_spec j 0) as [->|N].
    - rewrite H0 in Hu. cbn in Hu. injection Hu as <-. exists t. cbn. repeat split; auto.
      intros [C|C]; cbn in C; congruence.
    - exists u. repeat split; auto. }
  constructor; cbn [pos toks super index cur].
  - apply I.
  - intros i u Hu. destruct (B _ _ Hu) as (v & Hv & A1 & A2 & A3 & A4 & A5).
    pose proof (i_tok _ _ I _ _ Hv) as X. unfold tok_ok, closed, container in *. rewrite A1, A2, A3. auto.
  - intros i j a b Hij Ha Hb. destruct (B _ _ Ha) as (v & Hv & A1 & A2 & A3 & A4 & A5).
    destruct (B _ _ Hb) as (w & Hw & B1 & B2 & B3 & B4 & B5). rewrite A2, B2. apply (i_order _ _ I _ _ _ _ Hij Hv Hw).
  - intros i j a b Hij Ha Hb. destruct (B _ _ Ha) as (v & Hv & A1 & A2 & A3 & A4 & A5).
    destruct (B _ _ Hb) as (w & Hw & B1 & B2 & B3 & B4 & B5). unfold closed, container. rewrite A1, A3, B2, B3.
    apply (i_pair _ _ I _ _ _ _ Hij Hv Hw).
  - rewrite bump_length, find_open_bump. apply I.
  - intros j b Hb HN i a Hij Ha. destruct (B _ _ Ha) as (v & Hv & A1 & A2 & A3 & A4 & A5).
    destruct (B _ _ Hb) as (w & Hw & B1 & B2 & B3 & B4 & B5). unfold closed. rewrite A3, B2.
    apply (i_root _ _ I _ _ Hw ltac:(congruence) _ _ Hij Hv).
  - intros j b Hb HN. destruct (B _ _ Hb) as (w & Hw & B1 & B2 & B3 & B4 & B5). rewrite B4 in HN.
    destruct (i_parent _ _ I _ _ Hw HN) as (k & p & K1 & K2 & K3 & K4 & K5 & K6).
    assert (exists p', nth_error (bump (Some 0%nat) (toks s)) k = Some p').
    { destruct (nth_error (bump (Some 0%nat) (toks s)) k) eqn:X; eauto.
      apply nth_error_None in X. rewrite bump_length in X. assert (k < length (toks s))%nat by (apply nth_error_Some; congruence). lia. }
    destruct H as [p' Hp']. exists k, p'. destruct (B _ _ Hp') as (q & Hq & Q1 & Q2 & Q3 & Q4 & Q5).
    rewrite K3 in Hq. injection Hq as <-. unfold closed, container in *. rewrite B4, B2, B3, Q1, Q3.
      split; [auto|]. split; [auto|]. split; [auto|]. split; [auto|]. split; [auto|].
    all: intros i a Hi Ha; destruct (B _ _ Ha) as (v & Hv & A1 & A2 & A3 & A4 & A5); rewrite ?A3; apply (K6 i v); auto.
  - intros i u Hu Hc. destruct (B _ _ Hu) as (v & Hv & A1 & A2 & A3 & A4 & A5). rewrite (A5 Hc), nchildren_bump.
    apply (i_size _ _ I); auto. unfold container in *. rewrite <- A1. auto.
  - intros _. right. rewrite bump_nth. cbn [Nat.eqb]. rewrite H0. cbn. eauto.
Qed.

(** Closing the last open container. *)
Lemma inv_close : forall js s i t ty c,
  inv js s -> find_open (length (toks s)) (toks s) = Some i -> nth_error (toks s) i = Some t -> tty t = ty ->
  nth_error js (pos s) = Some c -> (ty = Obj /\ c = 125 \/ ty = Arr /\ c = 93) ->
  inv js (mkP (S (pos s)) (upd (toks s) i (set_end (Z.of_nat (pos s) + 1)))
     (find_open (S i) (upd (toks s) i (set_end (Z.of_nat (pos s) + 1)))) (index s) (cur s)).
Proof.
  intros js s i t ty c I HO Ht HTy Hc Hty.
  apply find_open_some in HO as (O1 & (t' & O2 & O3) & O4). rewrite Ht in O2. injection O2 as <-.
  assert (SO : forall j a, nth_error (toks s) j = Some a -> is_open a = false -> closed a).
  { intros j a Ha O. destruct (i_tok _ _ I _ _ Ha) as (B & _). unfold is_open in O. unfold closed.
    destruct (tst a =? -1) eqn:X; [b2p; lia|]. simpl in O. b2p; auto. }
  assert (TE : ten t = -1). { unfold is_open in O3. apply andb_true_iff in O3 as [_ O3]. b2p; auto. }
  assert (LP : (pos s < length js)%nat) by (apply nth_error_Some; congruence).
  set (E := Z.of_nat (pos s) + 1) in *.
  assert (B : forall j u, nth_error (upd (toks s) i (set_end E)) j = Some u ->
    exists v, nth_error (toks s) j = Some v /\ tty u = tty v /\ tst u = tst v /\ tpar u = tpar v /\ tsz u = tsz v /\
      ((j = i /\ v = t /\ ten u = E) \/ (j <> i /\ ten u = ten v))).
  { intros j u Hu. rewrite upd_nth in Hu. destruct (Nat.eqb_spec j i) as [->|N].
    - rewrite Ht in Hu. cbn in Hu. injection Hu as <-. exists t. cbn. repeat split; auto.
    - exists u. repeat split; auto. }
  constructor; cbn [pos toks super index cur].
  - lia.
  - intros j u Hu. destruct (B _ _ Hu) as (v & Hv & A1 & A2 & A3 & A4 & A5).
    pose proof (i_tok _ _ I _ _ Hv) as (X1 & X2 & X3 & X4 & X5 & X6). unfold tok_ok, closed, container in *.
    rewrite A1, A2. destruct A5 as [(-> & -> & Eu)|(Nj & Eu)]; rewrite Eu.
    + assert (Pe : char_at_ofs js (E - 1) c).
      { unfold char_at_ofs, E. split; [lia|]. replace (Z.to_nat _) with (pos s) by lia. auto. }
      split; [lia|]. split; [right; unfold E; lia|]. split; [unfold E; lia|].
      split; [|split].
      * intros T. split; [apply X4; auto|]. intros _. destruct Hty as [[T1 ->]|[T1 ->]]; congruence.
      * intros T. split; [apply X5; auto|]. intros _. destruct Hty as [[T1 ->]|[T1 ->]]; congruence.
      * intros T. destruct Hty as [[T1 _]|[T1 _]]; congruence.
    + split; [lia|]. split; [destruct X2; [left|right]; lia|]. auto.
  - intros j k a b Hij Ha Hb. destruct (B _ _ Ha) as (v & Hv & A1 & A2 & _).
    destruct (B _ _ Hb) as (w & Hw & B1 & B2 & _). rewrite A2, B2. apply (i_order _ _ I _ _ _ _ Hij Hv Hw).
  - intros j k a b Hij Ha Hb. destruct (B _ _ Ha) as (v & Hv & A1 & A2 & A3 & A4 & A5).
    destruct (B _ _ Hb) as (w & Hw & B1 & B2 & B3 & B4 & B5). unfold closed, container. rewrite A1, B2.
    pose proof (i_pair _ _ I j k v w Hij Hv Hw) as X. unfold closed, container in X.
    destruct A5 as [(-> & -> & Eu)|(Nj & Eu)]; rewrite Eu.
    + destruct B5 as [(-> & _)|(_ & Ew)]; [lia|]. rewrite Ew.
      pose proof (O4 _ _ ltac:(split; [exact Hij|apply nth_error_Some; congruence]) Hw) as O. apply SO with (1 := Hw) in O. unfold closed in O.
      destruct (i_tok _ _ I _ _ Hw) as (_ & C2 & _). destruct (i_tok _ _ I _ _ Hv) as (_ & _ & C3 & _).
      right. split; [apply C3; auto|]. right. split; auto. unfold E. lia.
    + destruct B5 as [(-> & -> & Ew)|(_ & Ew)]; rewrite Ew; [|tauto].
      destruct X as [X|(X1 & [X2|(X2 & X3)])]; [left; auto|right; auto|congruence].
  - rewrite upd_length. apply eq_sym. apply find_open_cut; [lia|].
    intros j u Hj Hu. destruct (B _ _ Hu) as (v & Hv & A1 & A2 & A3 & A4 & A5).
    destruct A5 as [(-> & _)|(_ & Eu)]; [lia|]. assert (is_open v = false) by (apply (O4 j); auto; lia).
    unfold is_open in *. rewrite A2, Eu. auto.
  - intros j b Hb HN k a Hij Ha. destruct (B _ _ Ha) as (v & Hv & A1 & A2 & A3 & A4 & A5).
    destruct (B _ _ Hb) as (w & Hw & B1 & B2 & B3 & B4 & B5). unfold closed. rewrite B2.
    pose proof (i_root _ _ I j w Hw ltac:(congruence) k v Hij Hv) as X. unfold closed in X.
    destruct A5 as [(-> & -> & Eu)|(Nj & Eu)]; rewrite Eu; auto. destruct X; congruence.
  - intros j b Hb HN. destruct (B _ _ Hb) as (w & Hw & B1 & B2 & B3 & B4 & B5). rewrite B3 in HN.
    destruct (i_parent _ _ I _ _ Hw HN) as (k & p & K1 & K2 & K3 & K4 & K5 & K6).
    assert (exists p', nth_error (upd (toks s) i (set_end E)) k = Some p').
    { destruct (nth_error (upd (toks s) i (set_end E)) k) eqn:X; eauto.
      apply nth_error_None in X. rewrite upd_length in X. assert (k < length (toks s))%nat by (apply nth_error_Some; congruence). lia. }
    destruct H as [p' Hp']. exists k, p'. destruct (B _ _ Hp') as (q & Hq & Q1 & Q2 & Q3 & Q4 & Q5).
    rewrite K3 in Hq. injection Hq as <-. split; [congruence|]. split; auto. split; auto.
    split; [unfold container in *; rewrite Q1; auto|]. split.
    + unfold closed in *. destruct Q5 as [(-> & -> & Ep)|(Nk & Ep)]; rewrite Ep.
      * right. destruct B5 as [(-> & _)|(Nj & Eb)]; [lia|]. rewrite Eb.
        pose proof (O4 _ _ ltac:(split; [exact K2|apply nth_error_Some; congruence]) Hw) as O. apply SO with (1 := Hw) in O. unfold closed in O.
        destruct (i_tok _ _ I _ _ Hw) as (_ & C2 & _). split; auto. unfold E; lia.
      * destruct K5 as [K5|(K5 & K5')]; auto. right.
        destruct B5 as [(-> & -> & Eb)|(Nj & Eb)]; rewrite Eb; [congruence|auto].
    + intros m a Hm Ha. destruct (B _ _ Ha) as (v & Hv & A1 & A2 & A3 & A4 & A5).
      pose proof (K6 m v Hm Hv) as X. unfold closed in *. rewrite B2.
      destruct A5 as [(-> & -> & Eu)|(Nj & Eu)]; rewrite Eu; auto. destruct X; congruence.
  - intros j u Hu Hcn. destruct (B _ _ Hu) as (v & Hv & A1 & A2 & A3 & A4 & A5).
    rewrite A4, nchildren_upd_end. apply (i_size _ _ I); auto. unfold container in *. rewrite <- A1. auto.
  - intros H34. right. destruct (i_first _ _ I H34) as [[E1 E2]|(t0 & E1 & E2)].
    + rewrite E1 in Ht. destruct i; discriminate.
    + rewrite upd_nth, E1. destruct (Nat.eqb 0 i); cbn; eauto.
Qed.

Lemma inv_irrel : forall js p ts su i c i' c', inv js (mkP p ts su i c) -> inv js (mkP p ts su i' c').
Proof. intros js p ts su i c i' c' [A1 A2 A3 A4 A5 A6 A7 A8 A9]. constructor; auto. Qed.

(** moving on over a character that makes no token *)
Lemma inv_skip : forall js s, inv js s -> (pos s < length js)%nat -> at_ js (pos s) <> 34 ->
  inv js (mkP (S (pos s)) (toks s) (super s) (index s) (cur s)).
Proof.
  intros js s I L N. constructor; cbn [pos toks super index cur]; try apply I.
  - lia.
  - intros i t Ht. destruct (i_tok _ _ I _ _ Ht) as (B1 & B2 & B3).
    split; [lia|]. split; [destruct B2; [left|right]; lia|]. auto.
  - intros H. destruct (i_first _ _ I H) as [[E1 E2]|]; auto. rewrite E2 in N. congruence.
Qed.

Definition cstr (js : list Z) : Prop := Forall (fun c => 0 < c < 256) js.

Lemma at_nz : forall js p, cstr js -> (at_ js p <> 0 <-> (p < length js)%nat).
Proof.
  intros js p H. unfold at_. split.
  - intros N. destruct (Nat.lt_ge_cases p (length js)); auto. rewrite nth_overflow in N by auto. congruence.
  - intros L. assert (In (nth p js 0) js) by (apply nth_In; auto).
    unfold cstr in H. rewrite Forall_forall in H. specialize (H _ H0). cbv beta in H. lia.
Qed.
Lemma at_nth : forall js p c, at_ js p = c -> (p < length js)%nat -> nth_error js p = Some c.
Proof. intros js p c <- L. unfold at_. apply nth_error_nth'. auto. Qed.
Lemma skipn_nth : forall (A : Type) (l : list A) n m, nth_error (skipn n l) m = nth_error l (n + m).
Proof. induction l as [|a l IH]; intros [|n] m; simpl; auto. destruct m; auto. Qed.

Lemma prim_scan_pos : forall st js p n, (p < length js)%nat ->
  prim_scan st (skipn p js) = inl n ->
  at_ js p <> 58 -> at_ js p <> 9 -> at_ js p <> 13 -> at_ js p <> 10 -> at_ js p <> 32 -> at_ js p <> 44 ->
  at_ js p <> 93 -> at_ js p <> 125 -> (0 < n)%nat /\ (p + n <= length js)%nat.
Proof.
  intros st js p n L H. pose proof (prim_scan_bound _ _ _ H) as B. rewrite skipn_length in B.
  pose proof (skipn_nth _ js p 0) as N. rewrite Nat.add_0_r, (at_nth js p _ eq_refl L) in N.
  destruct (skipn p js) as [|c r]; cbn in N; [discriminate|]. injection N as ->.
  intros. split; [|lia]. cbn [prim_scan] in H.
  repeat match goal with X : at_ js p <> ?k |- _ => apply Z.eqb_neq in X; rewrite X in H; clear X end.
  rewrite andb_false_r in H. cbn [orb] in H.
  destruct (_ || _) in H; [discriminate|]. destruct (prim_scan st r); [|discriminate]. injection H as <-. lia.
Qed.

Lemma step_inv : forall st js s s', cstr js -> (pos s < length js)%nat -> inv js s -> step st js s = inl s' ->
  inv js s' /\ (pos s < pos s' <= length js)%nat.
Proof.
  intros st js s s' HC L I H.
  pose proof (at_nth js (pos s) _ eq_refl L) as HN.
  unfold step in H.
  assert (CO : forall v, char_at_ofs js (Z.of_nat (pos s)) v <-> at_ js (pos s) = v).
  { intros v. unfold char_at_ofs. rewrite Nat2Z.id, HN. split; [intros [_ X]; congruence|intros ->; split; auto; lia]. }
  destruct ((at_ js (pos s) =? 123) || (at_ js (pos s) =? 91)) eqn:C1.
  { injection H as <-. cbn [pos]. split; [|lia].
    set (t := mkTok (if at_ js (pos s) =? 123 then Obj else Arr) (Z.of_nat (pos s)) (-1) 0 (par_of (super s))).
    assert (SL : forall k, super s = Some k -> (k < length (toks s))%nat).
    { intros k Hk. rewrite (i_super _ _ I) in Hk. apply find_open_some in Hk. tauto. }
    replace (bump (super s) (toks s) ++ [t]) with (bump (super s) (toks s ++ [t])).
    2:{ destruct (super s) as [k|]; auto. cbn [bump]. unfold upd. specialize (SL k eq_refl).
        rewrite nth_error_app1 by auto. destruct (nth_error (toks s) k) eqn:X; [|apply nth_error_None in X; lia].
        rewrite firstn_app, skipn_app. replace (k - length (toks s))%nat with 0%nat by lia.
        replace (S k - length (toks s))%nat with 0%nat by lia. cbn [firstn skipn]. rewrite app_nil_r, <- app_assoc. auto. }
    apply inv_append; auto; try lia.
    - subst t. unfold tok_ok, container, closed; cbn [tst ten tty]. split; [lia|]. split; [auto|].
      split; [intros _; destruct (_ =? _); auto|].
      destruct (at_ js (pos s) =? 123) eqn:X; cbn [orb] in C1.
      + split; [intros _; split; [apply CO; b2p; auto|congruence]|]. split; intros; discriminate.
      + split; [intros; discriminate|]. split; [intros _; split; [apply CO; b2p; auto|congruence]|]. intros; discriminate.
    - subst t. cbn. lia.
    - subst t. unfold is_open. cbn [tst ten]. destruct (Z.of_nat (pos s) =? -1) eqn:X; [b2p; lia|]. auto.
    - intros E1 E2 E3. rewrite E3 in *. rewrite E2 in C1. discriminate. }
  destruct ((at_ js (pos s) =? 125) || (at_ js (pos s) =? 93)) eqn:C2.
  { destruct (find_open (length (toks s)) (toks s)) as [i|] eqn:FO; [|discriminate].
    destruct (is_type (type_of (toks s) (Some i)) (if at_ js (pos s) =? 125 then Obj else Arr)) eqn:TY; [|discriminate].
    cbn [negb] in H. unfold type_of, is_type in TY.
    destruct (nth_error (toks s) i) as [t|] eqn:NT; [|discriminate]. cbn [option_map] in TY.
    assert (HT : tty t = (if at_ js (pos s) =? 125 then Obj else Arr)).
    { destruct (tty t), (at_ js (pos s) =? 125); cbn in TY; congruence. }
    assert (X : inv js (mkP (S (pos s)) (upd (toks s) i (set_end (Z.of_nat (pos s) + 1)))
       (find_open (S i) (upd (toks s) i (set_end (Z.of_nat (pos s) + 1)))) (index s) (cur s))).
    { apply (inv_close js s i t _ _ I FO NT HT HN). destruct (at_ js (pos s) =? 125) eqn:X; cbn [orb] in C2; b2p; auto. }
    destruct (find_open (S i) _) as [j|]; injection H as <-; cbn [pos]; (split; [eapply inv_irrel; eauto|lia]). }
  destruct (at_ js (pos s) =? 34) eqn:C3.
  { destruct (str_scan (skipn (S (pos s)) js)) as [n|] eqn:SC; [|discriminate].
    injection H as <-. apply str_scan_bound in SC. rewrite skipn_nth in SC.
    assert (LN : (S (pos s) + n < length js)%nat) by (apply nth_error_Some; congruence).
    cbn [pos]. split; [|lia].
    set (t := mkTok Str (Z.of_nat (S (pos s))) (Z.of_nat (S (pos s) + n)) 0 (par_of (super s))).
    assert (X : inv js (mkP (S (S (pos s) + n)) (bump (super s) (toks s ++ [t])) (super s) (index s)
       (match index s with Some i => Some i | None => cur s end))).
    { apply inv_append; auto; try lia.
      - subst t. unfold tok_ok, container, closed, char_at_ofs; cbn [tst ten tty].
        split; [lia|]. split; [right; lia|]. split; [intros; lia|].
        split; [intros; discriminate|]. split; [intros; discriminate|]. intros _.
        split; (split; [lia|]).
        + replace (Z.to_nat _) with (pos s) by lia. rewrite HN. b2p. congruence.
        + rewrite Nat2Z.id. auto.
      - subst t. cbn [tst]. lia. }
    destruct (super s) as [k|] eqn:SS; auto.
    destruct (at_ js 0 =? 34) eqn:Q0; auto. b2p.
    cbn [bump] in X. destruct (i_first _ _ X Q0) as [[Y _]|(t0 & Y1 & Y2)].
    + cbn [toks] in Y. destruct (toks s); discriminate.
    + cbn [toks] in Y1. eapply (inv_bump_str _ _ _ X Y1 Y2). }
  destruct ((at_ js (pos s) =? 58) && match cur s with None => true | _ => false end) in H; [discriminate|].
  destruct (_ && _ && _ && _) in H; [discriminate|].
  assert (SK : inv js (mkP (S (pos s)) (toks s) (super s) (index s) (cur s))) by (apply inv_skip; auto; b2p; auto).
  destruct ((at_ js (pos s) =? 58) || (at_ js (pos s) =? 44)) eqn:C4.
  { destruct (_ || _) in H; [injection H as <-; cbn [pos]; split; [auto|lia]|].
    destruct (negb _) in H; [discriminate|]. injection H as <-; cbn [pos]; split; [auto|lia]. }
  destruct ((at_ js (pos s) =? 9) || (at_ js (pos s) =? 13) || (at_ js (pos s) =? 10) || (at_ js (pos s) =? 32)) eqn:C5.
  { injection H as <-; cbn [pos]; split; [auto|lia]. }
  destruct (_ && _) in H; [discriminate|].
  destruct (prim_scan st (skipn (pos s) js)) as [n|] eqn:PS; [|discriminate].
  injection H as <-. cbn [pos].
  repeat match goal with X : _ || _ = false |- _ => apply orb_false_iff in X as [? X] end. b2p.
  destruct (prim_scan_pos st js (pos s) n L PS) as [N1 N2]; auto. split; [|lia].
  apply inv_append; auto; try lia.
  - unfold tok_ok, container, closed; cbn [tst ten tty].
    split; [lia|]. split; [right; lia|]. split; [intros; lia|].
    split; [intros; discriminate|]. split; intros; discriminate.
  - cbn [tst]. lia.
  - unfold is_open. cbn [tst ten]. destruct (Z.of_nat (pos s + n) =? -1) eqn:Y; [b2p; lia|].
    rewrite andb_false_r. auto.
  - intros E1 E2 E3. rewrite E3 in *. congruence.
Qed.

Lemma run_total : forall st js, cstr js -> forall fuel s, inv js s -> (length js - pos s < fuel)%nat ->
  exists r, run fuel st js s = Some r /\
    match r with
    | inl s' => inv js s' /\ pos s' = length js /\ forall i t, nth_error (toks s') i = Some t -> is_open t = false
    | inr _ => True
    end.
Proof.
  intros st js HC. induction fuel as [|fuel IH]; intros s I HF; [lia|]. cbn [run].
  destruct (at_ js (pos s) =? 0) eqn:Z0.
  - b2p. assert (pos s = length js).
    { pose proof (i_pos _ _ I). destruct (Nat.eq_dec (pos s) (length js)); auto.
      assert (at_ js (pos s) <> 0) by (apply at_nz; auto; lia). congruence. }
    eexists. split; [reflexivity|]. destruct (find_open _ _) as [i|] eqn:FO; auto.
    split; auto. split; auto. intros i t Ht. eapply find_open_none; eauto. apply nth_error_Some. congruence.
  - b2p. apply at_nz in Z0; auto. destruct (step st js s) as [s'|e] eqn:ST.
    + destruct (step_inv _ _ _ _ HC Z0 I ST) as [I' P']. apply IH; auto. lia.
    + exists (inr e); split; auto.
Qed.

Lemma json_parse_total : forall st js, cstr js -> exists r, json_parse st js = Some r /\
  match r with inl s => well_nested js (toks s) | inr _ => True end.
Proof.
  intros st js HC. destruct (run_total st js HC (S (length js)) pst0 (inv0 js) ltac:(cbn [pos pst0]; lia)) as (r & HR & HI).
  exists r. split; auto. destruct r as [s|]; auto. destruct HI as (I & HP & HO).
  assert (CL : forall i t, nth_error (toks s) i = Some t -> closed t /\ tst t <= ten t /\ ten t <= Z.of_nat (length js)).
  { intros i t Ht. specialize (HO _ _ Ht). destruct (i_tok _ _ I _ _ Ht) as (B1 & B2 & _). unfold is_open in HO. unfold closed.
    destruct (tst t =? -1) eqn:X; [b2p; lia|]. simpl in HO. b2p. rewrite HP in *. lia. }
  constructor.
  - intros i t Ht. destruct (i_tok _ _ I _ _ Ht) as (B1 & _). destruct (CL _ _ Ht). lia.
  - apply I.
  - intros i j a b Hij Ha Hb. unfold disjoint, nested_in. destruct (CL _ _ Ha) as (C1 & _).
    pose proof (i_order _ _ I _ _ _ _ Hij Ha Hb). unfold closed in *.
    destruct (i_pair _ _ I _ _ _ _ Hij Ha Hb) as [X|(X1 & [X|X])]; [left; tauto|congruence|right; tauto].
  - intros i t Ht HT. destruct (i_tok _ _ I _ _ Ht) as (_ & _ & _ & B & _). destruct (CL _ _ Ht). destruct (B HT); auto.
  - intros i t Ht HT. destruct (i_tok _ _ I _ _ Ht) as (_ & _ & _ & _ & B & _). destruct (CL _ _ Ht). destruct (B HT); auto.
  - intros i t Ht HT. destruct (i_tok _ _ I _ _ Ht) as (_ & _ & _ & _ & _ & B). auto.
  - intros j b Hb HN i a Hij Ha. apply (i_root _ _ I _ _ Hb HN _ _ Hij Ha).
  - intros j b Hb HN. destruct (i_parent _ _ I _ _ Hb HN) as (k & p & K1 & K2 & K3 & K4 & K5 & K6).
    exists k, p. destruct (CL _ _ K3) as (C1 & _). unfold closed in *.
    repeat match goal with |- _ /\ _ => split; auto end.
    + split; [apply (i_order _ _ I _ _ _ _ K2 K3 Hb)|]. destruct K5; [congruence|tauto].
    + intros i a Hi Ha. apply (K6 i a); auto.
  - apply I.
Qed.
