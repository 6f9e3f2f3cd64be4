(** Facts about heaps and counts; the central lemma on letting go of a reference. *)
From Coq Require Import ZArith List Bool Lia.
Import ListNotations.
From Verif Require Import Bits RefModel RefSpec.
Local Open Scope Z_scope.

Notation occ a l := (count_occ Nat.eq_dec l a).
Lemma occ_app a l m : occ a (l ++ m) = (occ a l + occ a m)%nat.
Proof. induction l as [|x l IH]; cbn; [reflexivity|]. destruct (Nat.eq_dec x a); lia. Qed.
Lemma occ_in a l : In a l <-> (0 < occ a l)%nat.
Proof. rewrite (count_occ_In Nat.eq_dec). unfold gt. tauto. Qed.
Lemma occ_cons a x l : occ a (x :: l) = ((if Nat.eq_dec x a then 1 else 0) + occ a l)%nat.
Proof. cbn. destruct (Nat.eq_dec x a); lia. Qed.

Lemma refs_out b : refs b = out b.
Proof.
  destruct b as [[n|o|v]|ps es pr w]; auto. unfold refs, out. f_equal. f_equal.
  - induction es as [|[e|] es IH]; cbn; congruence.
Qed.

(** ** get and put *)
Lemma get_put h a x c : (a < length h)%nat -> get (put h a c) x = if Nat.eqb x a then c else get h x.
Proof.
  unfold get. revert a x. induction h as [|y h IH]; intros a x Ha; [cbn in Ha; lia|].
  destruct a as [|a]; destruct x as [|x]; cbn; auto.
  apply IH. cbn in Ha; lia.
Qed.
Lemma length_put h a c : length (put h a c) = length h.
Proof. revert a. induction h; intros [|a0]; cbn; auto. Qed.
Lemma get_lt h a c : get h a = Some c -> (a < length h)%nat.
Proof.
  unfold get. destruct (nth_error h a) eqn:E; [|discriminate]. intros _.
  apply nth_error_Some. congruence.
Qed.
Lemma put_put h a c d : put (put h a c) a d = put h a d.
Proof. revert a. induction h; intros [|a0]; cbn; congruence. Qed.
Lemma heap_ext h h' : length h = length h' -> (forall a, get h a = get h' a) -> h = h'.
Proof.
  revert h'. induction h as [|x h IH]; intros [|y h'] L H; cbn in L; try lia; auto.
  f_equal; [apply (H O)|]. apply IH; [lia|]. intro a. apply (H (S a)).
Qed.
Lemma get_set_cnt h a n x : get (set_cnt a n h) x =
  if Nat.eqb x a then option_map (fun c => mkC n (bd c)) (get h a) else get h x.
Proof.
  unfold set_cnt. destruct (get h a) eqn:E.
  - rewrite get_put by (eapply get_lt; eauto). reflexivity.
  - destruct (Nat.eqb x a) eqn:X; auto. apply Nat.eqb_eq in X. subst. exact E.
Qed.
Lemma get_set_body h a b x : get (set_body a b h) x =
  if Nat.eqb x a then option_map (fun c => mkC (cnt c) b) (get h a) else get h x.
Proof.
  unfold set_body. destruct (get h a) eqn:E.
  - rewrite get_put by (eapply get_lt; eauto). reflexivity.
  - destruct (Nat.eqb x a) eqn:X; auto. apply Nat.eqb_eq in X. subst. exact E.
Qed.
Lemma length_set_cnt h a n : length (set_cnt a n h) = length h.
Proof. unfold set_cnt. destruct (get h a); auto. apply length_put. Qed.
Lemma length_set_body h a n : length (set_body a n h) = length h.
Proof. unfold set_body. destruct (get h a); auto. apply length_put. Qed.
Lemma set_body_set_body a b b' h : set_body a b (set_body a b' h) = set_body a b h.
Proof.
  apply heap_ext; [rewrite ?length_set_body; auto|]. intro x. rewrite !get_set_body.
  destruct (Nat.eqb x a); auto. rewrite Nat.eqb_refl. destruct (get h a); auto.
Qed.
Lemma set_body_same a c h : get h a = Some c -> set_body a (bd c) h = h.
Proof.
  intro E. apply heap_ext; [apply length_set_body|]. intro x. rewrite get_set_body.
  destruct (Nat.eqb x a) eqn:X; auto. apply Nat.eqb_eq in X. subst. rewrite E. destruct c; auto.
Qed.
Lemma live_get h a : live h a = true <-> exists c, get h a = Some c.
Proof. unfold live. destruct (get h a); split; intros; eauto; try discriminate. destruct H; discriminate. Qed.
Lemma write_ok a b h c : get h a = Some c -> write a b h = Ok (set_body a b h).
Proof. intro E. unfold write, live. rewrite E. reflexivity. Qed.

(** ** Who refers to what *)
Definition contrib (o : option cell) : list nat :=
  match o with Some c => if cnt c <? 0 then [] else refs (bd c) | None => [] end.
Definition srcs (h : heap) : list nat := flat_map contrib h.
Lemma occ_put x h a c : (a < length h)%nat ->
  (occ x (srcs (put h a c)) + occ x (contrib (get h a)) = occ x (srcs h) + occ x (contrib c))%nat.
Proof.
  unfold get, srcs. revert a. induction h as [|y h IH]; intros a Ha; [cbn in Ha; lia|].
  destruct a as [|a]; cbn [put nth_error flat_map]; rewrite !occ_app; [lia|].
  cbn in Ha. specialize (IH a ltac:(lia)). cbn in IH. lia.
Qed.
Lemma occ_srcs x h : (0 < occ x (srcs h))%nat <->
  exists b c, get h b = Some c /\ 0 <= cnt c /\ In x (refs (bd c)).
Proof.
  unfold get, srcs. split.
  - induction h as [|y h IH]; cbn [flat_map]; [cbn; lia|]. rewrite occ_app. intro H.
    destruct (occ x (contrib y)) eqn:E.
    + destruct IH as (b & c & G & P); [lia|]. exists (S b), c. auto.
    + assert (In x (contrib y)) as I by (apply occ_in; lia).
      exists O. destruct y as [c|]; cbn in *; [|tauto]. exists c.
      destruct (cnt c <? 0) eqn:Z; [cbn in I; tauto|]. split; auto. split; [b2p; lia|auto].
  - intros (b & c & G & N & I). revert b G. induction h as [|y h IH]; intros [|b] G; cbn in G; try discriminate.
    + subst y. cbn [flat_map contrib]. replace (cnt c <? 0) with false by (symmetry; apply Z.ltb_ge; auto).
      rewrite occ_app. apply occ_in in I. lia.
    + cbn [flat_map]. rewrite occ_app. specialize (IH b G). lia.
Qed.

(** ** The invariant: counts are numbers of holders; [ext]: the references outside the heap *)
Definition Inv (h : heap) (ext : list nat) : Prop :=
  forall a, match get h a with
            | Some c => (0 <= cnt c -> cnt c = Z.of_nat (occ a (srcs h) + occ a ext)) /\
                        (cnt c < 0 -> (occ a (srcs h) + occ a ext = 0)%nat)
            | None => (occ a (srcs h) + occ a ext = 0)%nat
            end.
Lemma Inv_ext h e e' : (forall a, occ a e = occ a e') -> Inv h e -> Inv h e'.
Proof. intros H I a. specialize (I a). rewrite <- (H a). exact I. Qed.

(** [x] has no holder: neither outside nor among the cells, but for those that have none either *)
Inductive unheldh (h : heap) (ext : list nat) : nat -> Prop :=
  | unheldh_intro x c : get h x = Some c -> 0 < cnt c -> ~ In x ext ->
      (forall b d, get h b = Some d -> 0 <= cnt d -> In x (refs (bd d)) -> unheldh h ext b) -> unheldh h ext x.
Lemma unheldh_mono h e e' x : (forall a, In a e' -> In a e) -> unheldh h e x -> unheldh h e' x.
Proof. intros H U. induction U as [x c G P N _ IH]. econstructor; eauto. Qed.

Definition npos (h : heap) : nat :=
  length (filter (fun o => match o with Some c => 0 <? cnt c | None => false end) h).
Lemma npos_put h a c : (a < length h)%nat ->
  (npos (put h a c) + (match get h a with Some c => if (0 <? cnt c)%Z then 1 else 0 | None => 0 end) =
   npos h + (match c with Some c => if (0 <? cnt c)%Z then 1 else 0 | None => 0 end))%nat.
Proof.
  unfold npos, get. revert a. induction h as [|y h IH]; intros a Ha; [cbn in Ha; lia|].
  destruct a as [|a]; cbn [put nth_error filter].
  - destruct y as [y|], c as [c|]; cbn; repeat match goal with |- context[if ?b then _ else _] => destruct b end; cbn; lia.
  - cbn in Ha. specialize (IH a ltac:(lia)). destruct y as [y|]; cbn; [destruct (0 <? cnt y)|]; cbn; lia.
Qed.
Lemma npos_le h : (npos h <= length h)%nat.
Proof. unfold npos. induction h as [|y h IH]; cbn; auto. destruct y as [y|]; [destruct (0 <? cnt y)|]; cbn; lia. Qed.

Record Post (h : heap) (ext : list nat) (h' : heap) : Prop := mkPost {
  p_inv : Inv h' ext;
  p_len : length h' = length h;
  p_dead : forall x, get h x = None -> get h' x = None;
  p_same : forall x c, get h x = Some c -> cnt c <= 0 -> get h' x = Some c;
  p_body : forall x c', get h' x = Some c' -> exists c, get h x = Some c /\ bd c' = bd c /\
              (0 < cnt c -> 0 < cnt c') /\ cnt c' <= cnt c;
  p_freed : forall x c, get h x = Some c -> get h' x = None -> unheldh h ext x;
  p_npos : (npos h' <= npos h)%nat }.

(** a step that changes no body and frees [x]s justified by [unheldh] can be put before another *)
Lemma Post_trans h e1 h1 e2 h2 : (forall a, In a e2 -> In a e1) -> Post h e1 h1 -> Post h1 e2 h2 -> Post h e2 h2.
Proof.
  intros S P Q. split.
  - apply (p_inv _ _ _ Q).
  - rewrite (p_len _ _ _ Q). apply (p_len _ _ _ P).
  - intros x D. apply (p_dead _ _ _ Q), (p_dead _ _ _ P), D.
  - intros x c G C. apply (p_same _ _ _ Q); auto. apply (p_same _ _ _ P); auto.
  - intros x c' G. destruct (p_body _ _ _ Q x c' G) as (c1 & G1 & B1 & N1 & L1).
    destruct (p_body _ _ _ P x c1 G1) as (c0 & G0 & B0 & N0 & L0). exists c0.
    split; [auto|]. split; [congruence|]. split; [auto|lia].
  - intros x c G D. destruct (get h1 x) as [c1|] eqn:G1.
    + pose proof (p_freed _ _ _ Q x c1 G1 D) as U. clear D. revert c c1 G G1.
      induction U as [x c2 G2 P2 N2 _ IH]. intros c c1 G G1.
      assert (c1 = c2) by congruence. subst c2.
      destruct (p_body _ _ _ P x c1 G1) as (c0 & G0 & B0 & N0 & L0). assert (c0 = c) by congruence. subst c0.
      econstructor; eauto; [lia|]. intros b d Gb Cb Ib. destruct (get h1 b) as [d1|] eqn:Gb1.
      * destruct (p_body _ _ _ P b d1 Gb1) as (d0 & Gd0 & Bd0 & Nd0 & Ld0).
        assert (d0 = d) by congruence. subst d0.
        apply (IH b d1 Gb1) with (c := d) (c1 := d1); auto.
        -- destruct (Z.eq_dec (cnt d) 0) as [Z|Z]; [|specialize (Nd0 ltac:(lia)); lia].
           assert (get h1 b = Some d) by (apply (p_same _ _ _ P); auto; lia). assert (d1 = d) by congruence. subst; lia.
        -- congruence.
      * apply unheldh_mono with (e := e1); auto. eapply (p_freed _ _ _ P); eauto.
    + apply unheldh_mono with (e := e1); auto. eapply (p_freed _ _ _ P); eauto.
  - pose proof (p_npos _ _ _ Q). pose proof (p_npos _ _ _ P). lia.
Qed.
Lemma Post_refl h e : Inv h e -> Post h e h.
Proof.
  intro I. split; auto.
  - intros x c' G. exists c'. repeat split; auto. lia.
  - congruence.
Qed.

Lemma zombify_inv h a c ext : get h a = Some c -> cnt c = 1 -> Inv h (a :: ext) ->
  Inv (set_cnt a (-1) h) (refs (bd c) ++ ext) /\ (occ a (srcs h) = 0)%nat /\ (occ a ext = 0)%nat.
Proof.
  intros G C I. pose proof (get_lt _ _ _ G) as L.
  pose proof (I a) as Ia. rewrite G in Ia. destruct Ia as [Ia _]. specialize (Ia ltac:(lia)).
  rewrite occ_cons in Ia. destruct (Nat.eq_dec a a); [|congruence].
  assert (occ a (srcs h) = 0 /\ occ a ext = 0)%nat as [Z1 Z2] by lia. split; [|auto].
  assert (forall x, occ x (srcs (set_cnt a (-1) h)) + occ x (refs (bd c)) = occ x (srcs h))%nat as S.
  { intro x. unfold set_cnt. rewrite G. pose proof (occ_put x h a (Some (mkC (-1) (bd c))) L) as Q.
    rewrite G in Q. cbn [contrib cnt bd] in Q. replace (cnt c <? 0) with false in Q by (rewrite C; auto).
    replace (-1 <? 0) with true in Q by auto. cbn in Q. lia. }
  intro x. specialize (I x). specialize (S x). rewrite get_set_cnt. rewrite occ_app.
  rewrite occ_cons in I. destruct (Nat.eqb x a) eqn:X.
  - apply Nat.eqb_eq in X. subst x. rewrite G. cbn. split; [lia|]. intros _.
    lia.
  - apply Nat.eqb_neq in X. destruct (Nat.eq_dec a x); [congruence|].
    destruct (get h x) as [d|]; [destruct I as [I1 I2]; split; intro; [rewrite I1 by auto|specialize (I2 ltac:(auto))]|]; lia.
Qed.

Lemma free_zombie_inv h a c ext : get h a = Some c -> cnt c < 0 -> Inv h ext -> Inv (put h a None) ext.
Proof.
  intros G C I x. pose proof (get_lt _ _ _ G) as L.
  pose proof (occ_put x h a None L) as Q. rewrite G in Q. cbn [contrib] in Q.
  replace (cnt c <? 0) with true in Q by (symmetry; apply Z.ltb_lt; auto). cbn in Q.
  rewrite get_put by auto. specialize (I x). destruct (Nat.eqb x a) eqn:X.
  - apply Nat.eqb_eq in X. subst x. rewrite G in I. destruct I as [_ I]. specialize (I C). lia.
  - destruct (get h x); [destruct I as [I1 I2]; split; intro; [rewrite I1 by auto|specialize (I2 ltac:(auto))]|]; lia.
Qed.

Lemma let_go_ok (dec : nat -> heap -> res heap) (n : nat) :
  (forall a h ext, (npos h < n)%nat -> Inv h (a :: ext) -> exists h', dec a h = Ok h' /\ Post h ext h') ->
  forall l h ext a c, (npos h < n)%nat -> Inv h (l ++ ext) -> get h a = Some c -> cnt c <= 0 ->
  exists h', let_go dec a l h = Ok h' /\ Post h ext h'.
Proof.
  intros D l. induction l as [|x l IH]; intros h ext a c N I G C.
  - exists h. split; [reflexivity|]. apply Post_refl; auto.
  - cbn [let_go app] in *. destruct (D x h (l ++ ext) N I) as (h1 & E & P). rewrite E. cbn [bind].
    assert (get h1 a = Some c) as G1 by (eapply p_same; eauto).
    unfold live. rewrite G1.
    destruct (IH h1 ext a c) as (h2 & E2 & P2); auto.
    + pose proof (p_npos _ _ _ P). lia.
    + apply (p_inv _ _ _ P).
    + exists h2. split; auto. eapply Post_trans; [|exact P|exact P2]. intros y Hy. apply in_or_app. auto.
Qed.

Lemma decr_ok fuel : forall a h ext, (npos h < fuel)%nat -> Inv h (a :: ext) ->
  exists h', decr fuel a h = Ok h' /\ Post h ext h'.
Proof.
  induction fuel as [|fuel IH]; intros a h ext N I; [lia|]. cbn [decr].
  pose proof (I a) as Ia. rewrite occ_cons in Ia. destruct (Nat.eq_dec a a); [|congruence].
  destruct (get h a) as [c|] eqn:G; [|lia]. destruct Ia as [Ia Ib].
  assert (0 <= cnt c) as C0 by (destruct (Z_lt_dec (cnt c) 0) as [L|L]; [specialize (Ib L)|]; lia).
  specialize (Ia C0). replace (cnt c <=? 0) with false by (symmetry; apply Z.leb_gt; lia).
  pose proof (get_lt _ _ _ G) as L.
  destruct (cnt c - 1 <=? 0) eqn:C1.
  - assert (cnt c = 1) as C by (b2p; lia). clear C1.
    destruct (zombify_inv h a c ext G C I) as (I1 & Z1 & Z2).
    set (h1 := set_cnt a (-1) h) in *.
    assert (get h1 a = Some (mkC (-1) (bd c))) as G1.
    { unfold h1. rewrite get_set_cnt, Nat.eqb_refl, G. reflexivity. }
    assert (forall x, x <> a -> get h1 x = get h x) as O1.
    { intros x X. unfold h1. rewrite get_set_cnt. apply Nat.eqb_neq in X. rewrite X. reflexivity. }
    assert (S (npos h1) = npos h) as N1.
    { pose proof (npos_put h a (Some (mkC (-1) (bd c))) L) as Q. unfold h1, set_cnt. rewrite G in *.
      cbn [cnt] in Q. rewrite C in Q. cbn in Q. lia. }
    assert (self_ref a (bd c) = false) as SR.
    { destruct (self_ref a (bd c)) eqn:SR; auto. exfalso.
      destruct c as [cc [[?|?|y]|? ? ? ?]]; try discriminate. cbn in SR. apply Nat.eqb_eq in SR. subst y.
      assert (0 < occ a (srcs h))%nat; [|lia]. apply occ_srcs. exists a, (mkC cc (BValue (PVariable a))). cbn; auto. }
    rewrite SR.
    destruct (let_go_ok (decr fuel) fuel IH (refs (bd c)) h1 ext a _ ltac:(lia) I1 G1) as (h2 & E & P); [cbn; lia|].
    rewrite E. cbn [bind]. assert (get h2 a = Some (mkC (-1) (bd c))) as G2 by (eapply p_same; eauto; cbn; lia).
    unfold live. rewrite G2. eexists. split; [reflexivity|].
    assert (a < length h2)%nat as L2 by (eapply get_lt; eauto).
    assert (unheldh h ext a) as Ua.
    { econstructor; eauto; [lia| |].
      - intro K. apply occ_in in K. lia.
      - intros b d Gb Cb Ib'. assert (0 < occ a (srcs h))%nat; [|lia]. apply occ_srcs. eauto. }
    split.
    + eapply free_zombie_inv; eauto; [cbn; lia|]. apply (p_inv _ _ _ P).
    + rewrite length_put, (p_len _ _ _ P). apply length_set_cnt.
    + intros x D. rewrite get_put by auto. destruct (Nat.eqb x a) eqn:X; auto.
      apply (p_dead _ _ _ P). apply Nat.eqb_neq in X. rewrite O1; auto.
    + intros x d Gx Cx. rewrite get_put by auto. destruct (Nat.eqb x a) eqn:X.
      * apply Nat.eqb_eq in X. subst x. assert (d = c) by congruence. subst. lia.
      * apply Nat.eqb_neq in X. apply (p_same _ _ _ P); auto. rewrite O1; auto.
    + intros x d Gx. rewrite get_put in Gx by auto. destruct (Nat.eqb x a) eqn:X; [discriminate|].
      apply Nat.eqb_neq in X. destruct (p_body _ _ _ P x d Gx) as (d0 & G0 & B0 & Q0). exists d0.
      rewrite O1 in G0 by auto. auto.
    + intros x d Gx Dx. rewrite get_put in Dx by auto. destruct (Nat.eqb x a) eqn:X.
      * apply Nat.eqb_eq in X. subst x. exact Ua.
      * apply Nat.eqb_neq in X. assert (get h1 x = Some d) as Gx1 by (rewrite O1; auto).
        pose proof (p_freed _ _ _ P x d Gx1 Dx) as U. clear - U Ua O1 G1.
        induction U as [x d Gx Px Nx _ IH].
        assert (x <> a) as X by (intro; subst x; rewrite G1 in Gx; injection Gx as <-; cbn in Px; lia).
        econstructor; eauto.
        -- rewrite <- O1; eauto.
        -- intros b e Gb Cb Ib. destruct (Nat.eq_dec b a) as [->|Y]; [exact Ua|]. eapply IH; eauto. rewrite O1; auto.
    + pose proof (npos_put h2 a None L2) as Q. rewrite G2 in Q. cbn in Q. pose proof (p_npos _ _ _ P). lia.
  - b2p. eexists. split; [reflexivity|].
    assert (forall x, occ x (srcs (set_cnt a (cnt c - 1) h)) = occ x (srcs h)) as S.
    { intro x. unfold set_cnt. rewrite G. pose proof (occ_put x h a (Some (mkC (cnt c - 1) (bd c))) L) as Q.
      rewrite G in Q. cbn [contrib cnt bd] in Q. replace (cnt c <? 0) with false in Q by (symmetry; apply Z.ltb_ge; lia).
      replace (cnt c - 1 <? 0) with false in Q by (symmetry; apply Z.ltb_ge; lia). lia. }
    split.
    + intro x. rewrite S. specialize (I x). rewrite get_set_cnt. rewrite occ_cons in I.
      destruct (Nat.eqb x a) eqn:X.
      * apply Nat.eqb_eq in X. subst x. rewrite G. cbn. split; lia.
      * apply Nat.eqb_neq in X. destruct (Nat.eq_dec a x); [congruence|]. exact I.
    + apply length_set_cnt.
    + intros x D. rewrite get_set_cnt. destruct (Nat.eqb x a) eqn:X; auto. apply Nat.eqb_eq in X. congruence.
    + intros x d Gx Cx. rewrite get_set_cnt. destruct (Nat.eqb x a) eqn:X; auto.
      apply Nat.eqb_eq in X. subst x. assert (d = c) by congruence. subst. lia.
    + intros x d. rewrite get_set_cnt. destruct (Nat.eqb x a) eqn:X.
      * apply Nat.eqb_eq in X. subst x. rewrite G. cbn. intros [= <-]. exists c. cbn. repeat split; auto; lia.
      * intro Gx. exists d. repeat split; auto. lia.
    + intros x d Gx. rewrite get_set_cnt. destruct (Nat.eqb x a) eqn:X; [|congruence].
      rewrite G. discriminate.
    + pose proof (npos_put h a (Some (mkC (cnt c - 1) (bd c))) L) as Q. unfold set_cnt. rewrite G in *.
      replace (0 <? cnt c) with true in Q by (symmetry; apply Z.ltb_lt; lia). cbn [cnt] in Q.
      destruct (0 <? cnt c - 1); lia.
Qed.
Lemma decr_ref_ok a h ext : Inv h (a :: ext) -> exists h', decr_ref a h = Ok h' /\ Post h ext h'.
Proof. apply decr_ok. pose proof (npos_le h). lia. Qed.
