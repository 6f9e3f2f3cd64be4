(** The operations, one by one. *)
From Coq Require Import ZArith List Bool Lia.
Import ListNotations.
From Verif Require Import Bits RefModel RefSpec RefProofs RefProofs2.
Local Open Scope Z_scope.

Definition decr_opt (x : option nat) (h : heap) : res heap := match x with Some x => decr_ref x h | None => Ok h end.
Definition incr_opt (x : option nat) (h : heap) : res heap := match x with Some x => incr x h | None => Ok h end.
Definition settle_opt (x : option nat) (s : state) : state := match x with Some x => settle x s | None => s end.
Definition keys_ok (b : body) : Prop := match b with BObject ps _ _ _ => NoDup (map fst ps) | _ => True end.

Lemma length_bodies h s : cells s = map (option_map bd) h -> length (cells s) = length h.
Proof. intros ->. apply map_length. Qed.
Lemma at_assign s o b a : (o < length (cells s))%nat -> at_ (assign o b s) a = if Nat.eqb a o then Some b else at_ s a.
Proof.
  unfold at_, assign. cbn [cells]. generalize (cells s). intro l. revert o a.
  induction l as [|x l IH]; intros o a L; [cbn in L; lia|]. destruct o as [|o].
  - destruct a; reflexivity.
  - destruct a as [|a]; [reflexivity|]. cbn in L. cbn [firstn skipn app nth Nat.eqb]. apply IH. lia.
Qed.
Lemma length_assign s o b : (o < length (cells s))%nat -> length (cells (assign o b s)) = length (cells s).
Proof. intro L. unfold assign. cbn [cells]. rewrite app_length, firstn_length. cbn [length]. rewrite skipn_length. lia. Qed.
Lemma at_settle x s a : at_ (settle_opt x s) a = at_ s a.
Proof. destruct x; reflexivity. Qed.
Lemma cells_settle x s : cells (settle_opt x s) = cells s. Proof. destruct x; reflexivity. Qed.
Lemma held_settle x s : held (settle_opt x s) = held s. Proof. destruct x; reflexivity. Qed.
Lemma in_settle x s a : In a (fresh (settle_opt x s)) <-> In a (fresh s) /\ x <> Some a.
Proof.
  destruct x as [x|]; cbn.
  - rewrite filter_In. split; intros [H1 H2]; split; auto.
    + intros [= ->]. rewrite Nat.eqb_refl in H2. discriminate.
    + destruct (Nat.eqb a x) eqn:E; auto. apply Nat.eqb_eq in E. congruence.
  - split; [|tauto]. intro; split; auto. discriminate.
Qed.

Definition hold_opt (x : option nat) (s : state) : state := match x with Some x => hold x s | None => s end.
Lemma fresh_hold x s : fresh (hold_opt x s) = fresh s. Proof. destruct x; reflexivity. Qed.
Lemma cells_hold x s : cells (hold_opt x s) = cells s. Proof. destruct x; reflexivity. Qed.
(** the counts after the body of a cell changed *)
Lemma occ_set_body y h o c b : get h o = Some c -> 0 <= cnt c ->
  (occ y (srcs (set_body o b h)) + occ y (refs (bd c)) = occ y (srcs h) + occ y (refs b))%nat.
Proof.
  intros G C. unfold set_body. rewrite G. pose proof (occ_put y h o (Some (mkC (cnt c) b)) (get_lt _ _ _ G)) as Q.
  rewrite G in Q. cbn [contrib cnt bd] in Q. replace (cnt c <? 0) with false in Q by (symmetry; apply Z.ltb_ge; lia). lia.
Qed.
Lemma occ_set_cnt y h o c n : get h o = Some c -> 0 <= cnt c -> 0 <= n ->
  occ y (srcs (set_cnt o n h)) = occ y (srcs h).
Proof.
  intros G C N. unfold set_cnt. rewrite G. pose proof (occ_put y h o (Some (mkC n (bd c))) (get_lt _ _ _ G)) as Q.
  rewrite G in Q. cbn [contrib cnt bd] in Q. replace (cnt c <? 0) with false in Q by (symmetry; apply Z.ltb_ge; lia).
  replace (n <? 0) with false in Q by (symmetry; apply Z.ltb_ge; lia). lia.
Qed.
Lemma incr_ok a h c : get h a = Some c -> 0 <= cnt c < INT_MAX -> incr a h = Ok (set_cnt a (cnt c + 1) h).
Proof.
  intros G C. unfold incr. rewrite G. replace (cnt c <? 0) with false by (symmetry; apply Z.ltb_ge; lia).
  replace (INT_MAX <=? cnt c) with false by (symmetry; apply Z.leb_gt; lia). reflexivity.
Qed.

Lemma inv_set_body h o c b ext ext' : get h o = Some c -> 0 <= cnt c -> Inv h ext ->
  (forall y, (occ y (refs b) + occ y ext' = occ y (refs (bd c)) + occ y ext)%nat) -> Inv (set_body o b h) ext'.
Proof.
  intros G C I E y. pose proof (occ_set_body y h o c b G C) as Q. specialize (E y). specialize (I y).
  rewrite get_set_body. destruct (Nat.eqb y o) eqn:X.
  - apply Nat.eqb_eq in X. subst y. rewrite G in *. cbn [option_map cnt]. destruct I as [I1 I2]. split; intro; [rewrite I1 by auto|]; lia.
  - destruct (get h y); [destruct I as [I1 I2]; split; intro; [rewrite I1 by auto|specialize (I2 ltac:(auto))]|]; lia.
Qed.
Lemma inv_incr h a c ext ext' : get h a = Some c -> 0 <= cnt c -> Inv h ext ->
  (forall y, occ y ext' = occ y (a :: ext)) -> Inv (set_cnt a (cnt c + 1) h) ext'.
Proof.
  intros G C I E y. pose proof (occ_set_cnt y h a c (cnt c + 1) G C ltac:(lia)) as Q. specialize (E y). specialize (I y).
  rewrite occ_cons in E. rewrite get_set_cnt. destruct (Nat.eqb y a) eqn:X.
  - apply Nat.eqb_eq in X. subst y. destruct (Nat.eq_dec a a); [|congruence]. rewrite G in *. cbn [option_map cnt]. destruct I as [I1 I2].
    specialize (I1 C). split; intro; lia.
  - apply Nat.eqb_neq in X. destruct (Nat.eq_dec a y); [congruence|].
    destruct (get h y); [destruct I as [I1 I2]; split; intro; [rewrite I1 by auto|specialize (I2 ltac:(auto))]|]; lia.
Qed.

(** Letting go of [x], which cell [o] still refers to while that happens. *)
Lemma phase h o c b0 xo ext :
  get h o = Some c -> 0 <= cnt c -> Inv h ext ->
  (forall y, occ y (refs (bd c)) = occ y (opt_list xo ++ refs b0)) ->
  (forall h1, Post (set_body o b0 h) ext h1 -> alive h1 o) ->
  exists h1, decr_opt xo h = Ok (set_body o (bd c) h1) /\ Post (set_body o b0 h) ext h1.
Proof.
  intros G C I E A. set (h0 := set_body o b0 h) in *.
  assert (h = set_body o (bd c) h0) as H by (unfold h0; rewrite set_body_set_body, set_body_same; auto).
  assert (Inv h0 (opt_list xo ++ ext)) as I0.
  { eapply inv_set_body; eauto. intro y. specialize (E y). rewrite !occ_app in *. lia. }
  destruct xo as [x|]; cbn [decr_opt opt_list app] in *.
  - destruct (decr_ref_ok x h0 ext I0) as (h1 & D & P). exists h1. split; auto.
    rewrite H. unfold decr_ref in *. rewrite length_set_body. apply decr_frame; auto.
  - exists h0. split; [congruence|]. apply Post_refl; auto.
Qed.

Lemma core h s o c b0 b2 xo nw zo :
  Rep h (hold_opt zo s) -> get h o = Some c ->
  (forall y, occ y (refs (bd c)) = occ y (opt_list xo ++ refs b0)) ->
  (forall y, occ y (refs b2) = occ y (opt_list zo ++ opt_list nw ++ refs b0)) ->
  (forall h1, Post (set_body o b0 h) (opt_list zo ++ held s) h1 -> alive h1 o) ->
  (forall v, nw = Some v -> room (hold_opt zo s) v /\ forall h1, Post (set_body o b0 h) (opt_list zo ++ held s) h1 -> alive h1 v) ->
  keys_ok b2 -> self_ref o b2 = false ->
  exists h' s', (h1 <- decr_opt xo h ;; h2 <- write o b2 h1 ;; incr_opt nw h2) = Ok h' /\
    swept (settle_opt nw (assign o b2 s)) s' /\ Rep h' s'.
Proof.
  intros R G E0 E2 A V K SB.
  assert (held (hold_opt zo s) = opt_list zo ++ held s) as HH by (destruct zo; reflexivity).
  pose proof (fresh_hold zo s) as FH. pose proof (r_cells _ _ R) as CH. rewrite cells_hold in CH.
  pose proof (r_cnt _ _ R) as RC. rewrite FH in RC. pose proof (r_fresh _ _ R) as RF. rewrite FH in RF.
  destruct (RC o c G) as [C Z].
  destruct (phase h o c b0 xo (opt_list zo ++ held s) G C (eq_rect _ _ (r_inv _ _ R) _ HH) E0 A) as (h1 & D & P).
  set (h0 := set_body o b0 h) in *.
  rewrite D. cbn [bind]. destruct (A h1 P) as (co & Go & Co).
  assert (get (set_body o (bd c) h1) o = Some (mkC (cnt co) (bd c))) as Go'.
  { rewrite get_set_body, Nat.eqb_refl, Go. reflexivity. }
  rewrite (write_ok o b2 _ _ Go'). cbn [bind]. rewrite set_body_set_body.
  set (h2 := set_body o b2 h1) in *.
  pose proof (get_lt _ _ _ G) as Lo. rewrite <- (length_bodies h s CH) in Lo.
  (* facts on h1 *)
  assert (forall a d, get h1 a = Some d -> exists d0, get h a = Some d0 /\ (a <> o -> bd d = bd d0) /\
            (a = o -> bd d = b0) /\ 0 <= cnt d /\ cnt d <= cnt d0 /\ (cnt d = 0 <-> In a (fresh s))) as F1.
  { intros a d Gd. destruct (p_body _ _ _ P a d Gd) as (d0 & G0 & B0 & N0 & L0). unfold h0 in G0.
    rewrite get_set_body in G0.
    assert (exists d', get h a = Some d' /\ cnt d' = cnt d0 /\ (a <> o -> bd d' = bd d0) /\ (a = o -> bd d0 = b0)) as (d' & Gd' & Cd' & Bd' & Bo').
    { destruct (Nat.eqb a o) eqn:X.
      - apply Nat.eqb_eq in X. subst a. rewrite G in G0. cbn in G0. injection G0 as <-. exists c. cbn. repeat split; auto; congruence.
      - apply Nat.eqb_neq in X. exists d0. repeat split; auto. congruence. }
    exists d'. split; auto. split; [intro; rewrite B0; symmetry; auto|]. split; [intro; rewrite B0; auto|].
    destruct (RC a d' Gd') as [Q1 Q2]. rewrite Cd' in *.
    destruct (Z.eq_dec (cnt d0) 0) as [Y|Y].
    - assert (get h1 a = Some d0) as W.
      { apply (p_same _ _ _ P); [unfold h0; rewrite get_set_body; exact G0|lia]. }
      assert (d = d0) by congruence. subst d. split; [lia|]. split; [lia|]. exact Q2.
    - specialize (N0 ltac:(lia)). split; [lia|]. split; [lia|]. split; intro; [lia|]. tauto. }
  assert (exists h3, incr_opt nw h2 = Ok h3 /\ Inv h3 (held s) /\ length h3 = length h /\
    (forall a, get h3 a = None <-> get h1 a = None) /\
    (forall a d, get h3 a = Some d -> exists d1, get h1 a = Some d1 /\
       bd d = (if Nat.eqb a o then b2 else bd d1) /\
       cnt d = cnt d1 + (match nw with Some v => if Nat.eqb a v then 1 else 0 | None => 0 end))) as (h3 & E3 & I3 & L3 & N3 & B3).
  {
    assert (length h2 = length h) as L2.
    { unfold h2. rewrite length_set_body, (p_len _ _ _ P). apply length_set_body. }
    assert (forall a, get h2 a = None <-> get h1 a = None) as N2.
    { intro a. unfold h2. rewrite get_set_body. destruct (Nat.eqb a o) eqn:X; [|tauto].
      apply Nat.eqb_eq in X. subst. rewrite Go. cbn. split; discriminate. }
    assert (forall a d, get h2 a = Some d -> exists d1, get h1 a = Some d1 /\
       bd d = (if Nat.eqb a o then b2 else bd d1) /\ cnt d = cnt d1) as B2.
    { intros a d. unfold h2. rewrite get_set_body. destruct (Nat.eqb a o) eqn:X.
      - apply Nat.eqb_eq in X. subst. rewrite Go. cbn. intros [= <-]. eauto.
      - intro Gd. eauto. }
    destruct (F1 o co Go) as (co0 & Gco0 & _ & Bco & _).
    destruct nw as [v|]; cbn [incr_opt opt_list app] in *.
    - destruct (V v eq_refl) as [Rv Av]. destruct (Av h1 P) as (cv & Gv & Cv).
      assert (exists cv2, get h2 v = Some cv2 /\ cnt cv2 = cnt cv) as (cv2 & Gv2 & Cv2).
      { unfold h2. rewrite get_set_body. destruct (Nat.eqb v o) eqn:X; [|eauto].
        apply Nat.eqb_eq in X. subst. rewrite Go. cbn. eexists; split; eauto. cbn. congruence. }
      destruct (F1 v cv Gv) as (cv0 & Gv0 & _ & _ & _ & Lv & _).
      unfold room in Rv. rewrite (rep_holders _ _ _ _ R Gv0) in Rv.
      rewrite (incr_ok v h2 cv2 Gv2) by lia. eexists. split; [reflexivity|].
      split.
      + (* counts: v was written before it was counted *)
        intro y. rewrite (occ_set_cnt y h2 v cv2 _ Gv2) by lia.
        pose proof (occ_set_body y h1 o co b2 Go Co) as Q. fold h2 in Q. rewrite (Bco eq_refl) in Q.
        specialize (E2 y). rewrite occ_app, occ_cons in E2. pose proof (p_inv _ _ _ P y) as I. rewrite occ_app in I.
        rewrite get_set_cnt. destruct (Nat.eqb y v) eqn:X.
        * apply Nat.eqb_eq in X. subst y. destruct (Nat.eq_dec v v); [|congruence]. rewrite Gv in I. rewrite Gv2. cbn [option_map cnt].
          destruct I as [I _]. specialize (I Cv). split; lia.
        * apply Nat.eqb_neq in X. destruct (Nat.eq_dec v y); [congruence|].
          destruct (get h2 y) as [d|] eqn:Gy.
          -- destruct (B2 y d Gy) as (d1 & Gd1 & _ & Cd). rewrite Gd1 in I. rewrite Cd. destruct I as [I1 I2].
             split; intro; [rewrite I1 by auto|specialize (I2 ltac:(auto))]; lia.
          -- apply N2 in Gy. rewrite Gy in I. lia.
      + split; [rewrite length_set_cnt; auto|]. split.
        * intro a. rewrite <- N2, get_set_cnt. destruct (Nat.eqb a v) eqn:X; [|tauto].
          apply Nat.eqb_eq in X. subst. rewrite Gv2. cbn. split; discriminate.
        * intros a d. rewrite get_set_cnt. destruct (Nat.eqb a v) eqn:X.
          -- apply Nat.eqb_eq in X. subst. rewrite Gv2. cbn. intros [= <-]. destruct (B2 v cv2 Gv2) as (d1 & Q1 & Q2 & Q3).
             exists d1. cbn. repeat split; auto. lia.
          -- intro Gd. destruct (B2 a d Gd) as (d1 & Q1 & Q2 & Q3). exists d1. repeat split; auto. lia.
    - exists h2. split; auto. split.
      + intro y. pose proof (occ_set_body y h1 o co b2 Go Co) as Q. fold h2 in Q. rewrite (Bco eq_refl) in Q.
        specialize (E2 y). rewrite occ_app in E2. pose proof (p_inv _ _ _ P y) as I. rewrite occ_app in I.
        destruct (get h2 y) as [d|] eqn:Gy.
        * destruct (B2 y d Gy) as (d1 & Gd1 & _ & Cd). rewrite Gd1 in I. rewrite Cd. destruct I as [I1 I2].
          split; intro; [rewrite I1 by auto|specialize (I2 ltac:(auto))]; lia.
        * apply N2 in Gy. rewrite Gy in I. lia.
      + split; auto. split; auto. intros a d Gd. destruct (B2 a d Gd) as (d1 & Q1 & Q2 & Q3). exists d1. repeat split; auto. lia. }
  rewrite E3. exists h3.
  destruct (finish h3 (settle_opt nw (assign o b2 s))) as (s' & SW & R'); [ | | | | | | |eauto].
  - rewrite cells_settle, length_assign, (length_bodies h s) by (auto; apply CH). auto.
  - rewrite held_settle. exact I3.
  - intros a d Gd. destruct (B3 a d Gd) as (d1 & Gd1 & Bd & Cd). destruct (F1 a d1 Gd1) as (d0 & Gd0 & Q1 & Q2 & Q3 & Q4 & Q5).
    rewrite at_settle, at_assign by auto. split.
    + rewrite Bd. destruct (Nat.eqb a o) eqn:X; auto. apply Nat.eqb_neq in X.
      rewrite (at_rep h) by apply CH. rewrite Gd0. cbn. rewrite Q1; auto.
    + split; [destruct nw as [v|]; [destruct (Nat.eqb a v)|]; lia|]. rewrite in_settle. cbn [fresh assign]. rewrite <- Q5.
      destruct nw as [v|].
      * destruct (Nat.eqb a v) eqn:X.
        -- apply Nat.eqb_eq in X. subst v. split; [lia|]. intros [_ Q]. congruence.
        -- apply Nat.eqb_neq in X. split; [intro; split; [lia|congruence]|lia].
      * split; [intro; split; [lia|congruence]|lia].
  - intros a. rewrite in_settle. cbn [fresh assign]. intros [Fa _].
    destruct (RF a Fa) as (d & Gd). destruct (RC a d Gd) as [_ Qd]. apply Qd in Fa.
    destruct (get h3 a) eqn:G3; [eauto|]. apply N3 in G3. exfalso.
    assert (exists d', get h0 a = Some d' /\ cnt d' = cnt d) as (d' & Gd' & Cd').
    { unfold h0. rewrite get_set_body. destruct (Nat.eqb a o) eqn:X; [|eauto]. apply Nat.eqb_eq in X. subst.
      rewrite Gd. cbn. eexists; split; eauto. }
    rewrite (p_same _ _ _ P a d' Gd') in G3 by lia. discriminate.
  - intros a d ps es pr w Gd Bd. destruct (B3 a d Gd) as (d1 & Gd1 & Bd1 & _). rewrite Bd1 in Bd.
    destruct (Nat.eqb a o) eqn:X.
    + rewrite Bd in K. exact K.
    + apply Nat.eqb_neq in X. destruct (F1 a d1 Gd1) as (d0 & Gd0 & Q1 & _). rewrite Q1 in Bd by auto.
      eapply (r_keys _ _ R); eauto.
  - intros a d Gd. destruct (B3 a d Gd) as (d1 & Gd1 & Bd1 & _). rewrite Bd1. destruct (Nat.eqb a o) eqn:X.
    + apply Nat.eqb_eq in X. subst. exact SB.
    + apply Nat.eqb_neq in X. destruct (F1 a d1 Gd1) as (d0 & Gd0 & Q1 & _). rewrite Q1 by auto.
      apply (r_self _ _ R); auto.
  - intros a b Ha Na. apply N3 in Na. rewrite at_settle, at_assign in Ha by auto.
    destruct (Nat.eqb a o) eqn:X; [apply Nat.eqb_eq in X; congruence|]. apply Nat.eqb_neq in X.
    rewrite (at_rep h) in Ha by apply CH. destruct (get h a) as [d|] eqn:Gd; [|discriminate].
    assert (get h0 a = Some d) as G0.
    { unfold h0. rewrite get_set_body. apply Nat.eqb_neq in X. rewrite X. auto. }
    pose proof (p_freed _ _ _ P a d G0 Na) as U. clear - U P V R Lo E2 G C N3 A Go HH FH CH RC.
    induction U as [a d Gd Cd Nd Hd IH].
    assert (get h1 a = None) as Da by (apply (unheldh_dead h0 (opt_list zo ++ held s)); auto; econstructor; eauto).
    assert (nw <> Some a) as NV.
    { intro Q. destruct (V a Q) as [_ Va]. destruct (Va h1 P) as (q & Q1 & _). congruence. }
    assert (a <> o) as AO by congruence.
    constructor.
    + rewrite held_settle. cbn [held assign]. intro Q. apply Nd, in_or_app. auto.
    + rewrite in_settle. cbn [fresh assign]. intros [Q _]. unfold h0 in Gd. rewrite get_set_body in Gd.
      apply Nat.eqb_neq in AO. rewrite AO in Gd. apply (RC a d Gd) in Q. lia.
    + intros b (x & Hx & Ix). rewrite at_settle, at_assign in Hx by auto.
      destruct (Nat.eqb b o) eqn:Y.
      * apply Nat.eqb_eq in Y. subst b. injection Hx as <-. rewrite <- refs_out in Ix.
        assert (In a (refs b0)) as I0.
        { apply occ_in. apply occ_in in Ix. specialize (E2 a). rewrite E2, !occ_app in Ix.
          assert (occ a (opt_list zo) = 0)%nat as ZZ.
          { destruct (occ a (opt_list zo)) eqn:ZE; auto. exfalso. apply Nd, in_or_app. left. apply occ_in. lia. }
          destruct nw as [v|]; cbn [opt_list] in Ix; [rewrite occ_cons in Ix; destruct (Nat.eq_dec v a); [congruence|]|]; cbn in Ix; lia. }
        apply (IH o (mkC (cnt c) b0)); auto. unfold h0. rewrite get_set_body, Nat.eqb_refl, G. reflexivity.
      * rewrite (at_rep h) in Hx by apply CH. destruct (get h b) as [e|] eqn:Ge; [|discriminate].
        cbn in Hx. injection Hx as <-. apply (IH b e).
        -- unfold h0. rewrite get_set_body, Y. auto.
        -- apply (RC b e Ge).
        -- rewrite refs_out. auto.
Qed.
