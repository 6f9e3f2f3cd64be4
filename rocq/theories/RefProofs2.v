(** Writing a cell while a reference is being let go of; what a state and a heap have in common. *)
From Coq Require Import ZArith List Bool Lia.
Import ListNotations.
From Verif Require Import Bits RefModel RefSpec RefProofs.
Local Open Scope Z_scope.

(** ** The body of a cell that survives plays no role in letting go *)
Definition keeps (h h' : heap) : Prop :=
  (forall x, get h x = None -> get h' x = None) /\
  (forall x c, get h x = Some c -> cnt c < 0 -> get h' x = Some c).
Lemma keeps_refl h : keeps h h. Proof. split; auto. Qed.
Lemma keeps_trans h h1 h2 : keeps h h1 -> keeps h1 h2 -> keeps h h2.
Proof. intros [A B] [C D]. split; eauto. Qed.
Lemma let_go_keeps dec a : (forall x h h', dec x h = Ok h' -> keeps h h') ->
  forall l h h', let_go dec a l h = Ok h' -> keeps h h'.
Proof.
  intros D l. induction l as [|x l IH]; intros h h'; cbn [let_go].
  - intros [= <-]. apply keeps_refl.
  - destruct (dec x h) as [h1| |] eqn:E; cbn [bind]; try discriminate.
    destruct (live h1 a); [|discriminate]. intro Q. eapply keeps_trans; eauto.
Qed.
Lemma decr_keeps fuel : forall a h h', decr fuel a h = Ok h' -> keeps h h'.
Proof.
  induction fuel as [|fuel IH]; intros a h h'; cbn [decr]; [discriminate|].
  destruct (get h a) as [c|] eqn:G; [|discriminate].
  destruct (cnt c <=? 0) eqn:C; [intros [= <-]; apply keeps_refl|].
  destruct (cnt c - 1 <=? 0) eqn:C1.
  - destruct (self_ref a (bd c)); [discriminate|].
    destruct (let_go _ _ _ _) as [h2| |] eqn:E; cbn [bind]; try discriminate.
    destruct (live h2 a) eqn:L; [|discriminate]. intros [= <-].
    pose proof (let_go_keeps _ a IH _ _ _ E) as [K1 K2].
    apply live_get in L. destruct L as [c2 G2]. pose proof (get_lt _ _ _ G2) as L2.
    split.
    + intros x D. rewrite get_put by auto. destruct (Nat.eqb x a) eqn:X; auto.
      apply K1. rewrite get_set_cnt, X. exact D.
    + intros x d Gx Cx. rewrite get_put by auto. destruct (Nat.eqb x a) eqn:X.
      * apply Nat.eqb_eq in X. subst x. assert (d = c) by congruence. subst. b2p. lia.
      * apply K2; auto. rewrite get_set_cnt, X. exact Gx.
  - intros [= <-]. split.
    + intros x D. rewrite get_set_cnt. destruct (Nat.eqb x a) eqn:X; auto. apply Nat.eqb_eq in X. congruence.
    + intros x d Gx Cx. rewrite get_set_cnt. destruct (Nat.eqb x a) eqn:X; auto.
      apply Nat.eqb_eq in X. subst x. assert (d = c) by congruence. subst. b2p. lia.
Qed.

Definition alive (h : heap) (o : nat) : Prop := exists c, get h o = Some c /\ 0 <= cnt c.
Lemma alive_back h h' o : keeps h h' -> alive h' o -> alive h o.
Proof.
  intros [K1 K2] (c & G & C). destruct (get h o) as [d|] eqn:E.
  - exists d. split; auto. destruct (Z_lt_dec (cnt d) 0) as [L|L]; [|lia].
    pose proof (K2 _ _ E L). assert (d = c) by congruence. subst. lia.
  - rewrite (K1 _ E) in G. discriminate.
Qed.
Lemma live_set_body h o b a : live (set_body o b h) a = live h a.
Proof.
  unfold live. rewrite get_set_body. destruct (Nat.eqb a o) eqn:X; auto.
  apply Nat.eqb_eq in X. subst. destruct (get h o); auto.
Qed.
Lemma set_body_set_cnt o b a n h : set_cnt a n (set_body o b h) = set_body o b (set_cnt a n h).
Proof.
  apply heap_ext; [rewrite !length_set_cnt, !length_set_body, length_set_cnt; auto|].
  intro x. repeat (rewrite get_set_cnt || rewrite get_set_body).
  destruct (Nat.eqb x a) eqn:X, (Nat.eqb x o) eqn:Y; auto.
  - apply Nat.eqb_eq in X, Y. subst. rewrite !Nat.eqb_refl. destruct (get h o); auto.
  - apply Nat.eqb_eq in X. subst. rewrite Y. auto.
  - apply Nat.eqb_eq in Y. subst. rewrite X. auto.
Qed.
Lemma let_go_frame dec o b a :
  (forall x h h', dec x h = Ok h' -> keeps h h') ->
  (forall x h h', dec x h = Ok h' -> alive h' o -> dec x (set_body o b h) = Ok (set_body o b h')) ->
  forall l h h', let_go dec a l h = Ok h' -> alive h' o -> let_go dec a l (set_body o b h) = Ok (set_body o b h').
Proof.
  intros K D l. induction l as [|x l IH]; intros h h'; cbn [let_go].
  - intros [= <-]. auto.
  - destruct (dec x h) as [h1| |] eqn:E; cbn [bind]; try discriminate.
    destruct (live h1 a) eqn:L; [|discriminate]. intros Q A.
    rewrite (D x h h1 E).
    + cbn [bind]. rewrite live_set_body, L. apply IH; auto.
    + eapply alive_back; eauto. eapply let_go_keeps; eauto.
Qed.
Lemma decr_frame o b fuel : forall x h h', decr fuel x h = Ok h' -> alive h' o ->
  decr fuel x (set_body o b h) = Ok (set_body o b h').
Proof.
  induction fuel as [|fuel IH]; intros a h h'; cbn [decr]; [discriminate|].
  destruct (get h a) as [c|] eqn:G; [|discriminate].
  rewrite get_set_body.
  destruct (Nat.eqb a o) eqn:X.
  - apply Nat.eqb_eq in X. subst o. rewrite G. cbn [option_map cnt bd].
    destruct (cnt c <=? 0) eqn:C; [intros [= <-]; auto|].
    destruct (cnt c - 1 <=? 0) eqn:C1.
    + destruct (self_ref a (bd c)); [discriminate|].
      destruct (let_go _ _ _ _) as [h2| |] eqn:E; cbn [bind]; try discriminate.
      destruct (live h2 a) eqn:L; [|discriminate]. intros [= <-] (d & Gd & _).
      apply live_get in L. destruct L as [c2 G2]. rewrite get_put, Nat.eqb_refl in Gd by (eapply get_lt; eauto). discriminate.
    + intros [= <-] _. rewrite set_body_set_cnt. auto.
  - rewrite G. destruct (cnt c <=? 0) eqn:C; [intros [= <-]; auto|].
    destruct (cnt c - 1 <=? 0) eqn:C1.
    + destruct (self_ref a (bd c)); [discriminate|].
      destruct (let_go _ _ _ _) as [h2| |] eqn:E; cbn [bind]; try discriminate.
      destruct (live h2 a) eqn:L; [|discriminate]. intros [= <-] A.
      assert (exists c2, get h2 a = Some c2) as [c2 G2] by (apply live_get; auto).
      pose proof (get_lt _ _ _ G2) as L2.
      rewrite set_body_set_cnt.
      erewrite (let_go_frame (decr fuel) o b a (decr_keeps fuel) IH); [|exact E|].
      * cbn [bind]. rewrite live_set_body, L. f_equal.
        apply heap_ext; [rewrite ?length_put, ?length_set_body, ?length_put; auto|].
        intro x. rewrite get_put by (rewrite length_set_body; auto). rewrite !get_set_body, !get_put by auto.
        destruct (Nat.eqb x a) eqn:Y, (Nat.eqb x o) eqn:Z; auto.
        -- apply Nat.eqb_eq in Y, Z. apply Nat.eqb_neq in X. congruence.
        -- rewrite Nat.eqb_sym in X. rewrite X. auto.
      * destruct A as (d & Gd & Cd). rewrite get_put in Gd by auto. rewrite Nat.eqb_sym, X in Gd. exists d; auto.
    + intros [= <-] _. rewrite set_body_set_cnt. auto.
Qed.

(** ** What survives *)
Lemma inv_alive h ext a : Inv h ext -> (0 < occ a (srcs h) + occ a ext)%nat -> exists c, get h a = Some c /\ 0 < cnt c.
Proof.
  intros I P. specialize (I a). destruct (get h a) as [c|]; [|lia]. exists c. split; auto.
  destruct I as [I1 I2]. destruct (Z_lt_dec (cnt c) 0) as [L|L]; [specialize (I2 L); lia|].
  rewrite I1 by lia. lia.
Qed.
Inductive pinned (h : heap) (ext : list nat) (t : list nat) : nat -> Prop :=
  | pin_ext a : In a ext -> pinned h ext t a
  | pin_ref w c a : ~ In w t -> get h w = Some c -> cnt c = 0 \/ (0 <= cnt c /\ pinned h ext t w) ->
      In a (refs (bd c)) -> pinned h ext t a.
Lemma pinned_survives h ext t h0 h1 a : (forall w, ~ In w t -> get h0 w = get h w) -> Post h0 ext h1 ->
  pinned h ext t a -> exists c, get h1 a = Some c /\ 0 < cnt c.
Proof.
  intros O P. revert a. fix F 2. intros a Q. destruct Q as [a I|w c a W G D I].
  - apply (inv_alive h1 ext); [apply (p_inv _ _ _ P)|]. apply occ_in in I. lia.
  - apply (inv_alive h1 ext); [apply (p_inv _ _ _ P)|].
    assert (0 < occ a (srcs h1))%nat; [|lia]. apply occ_srcs. rewrite <- O in G by auto.
    destruct D as [D|[D Q]].
    + exists w, c. split; [eapply p_same; eauto; lia|]. split; [lia|auto].
    + destruct (F w Q) as (d & Gd & Cd). destruct (p_body _ _ _ P w d Gd) as (c0 & G0 & B0 & _).
      assert (c0 = c) by congruence. subst c0. exists w, d. split; auto. split; [lia|]. rewrite B0. auto.
Qed.
Lemma unheldh_dead h e h1 a : Post h e h1 -> unheldh h e a -> get h1 a = None.
Proof.
  intros P U. induction U as [a c G C N _ IH]. destruct (get h1 a) as [c1|] eqn:G1; [exfalso|auto].
  destruct (p_body _ _ _ P a c1 G1) as (c0 & G0 & B0 & N0 & L0). assert (c0 = c) by congruence. subst c0.
  specialize (N0 C). pose proof (p_inv _ _ _ P a) as I. rewrite G1 in I. destruct I as [I _].
  specialize (I ltac:(lia)). assert (occ a e = 0%nat) as Z.
  { destruct (occ a e) eqn:E; auto. exfalso. apply N, occ_in. lia. }
  assert (0 < occ a (srcs h1))%nat as Q by lia. apply occ_srcs in Q. destruct Q as (b & d & Gb & Cb & Ib).
  destruct (p_body _ _ _ P b d Gb) as (d0 & Gd0 & Bd0 & Nd0 & Ld0).
  rewrite (IH b d0) in Gb; auto; [discriminate|lia|congruence].
Qed.

(** ** A heap represents a state *)
Record Rep (h : heap) (s : state) : Prop := mkRep {
  r_cells : cells s = map (option_map bd) h;
  r_inv : Inv h (held s);
  r_cnt : forall a c, get h a = Some c -> 0 <= cnt c /\ (cnt c = 0 <-> In a (fresh s));
  r_fresh : forall a, In a (fresh s) -> exists c, get h a = Some c;
  r_keys : forall a c ps es pr w, get h a = Some c -> bd c = BObject ps es pr w -> NoDup (map fst ps);
  r_self : forall a c, get h a = Some c -> self_ref a (bd c) = false }.

Lemma get_nth h a : get h a = nth a h None.
Proof. unfold get. revert a. induction h as [|x h IH]; intros [|a]; cbn; auto. Qed.
Lemma at_rep h s a : cells s = map (option_map bd) h -> at_ s a = option_map bd (get h a).
Proof.
  intro E. unfold at_. rewrite E, get_nth. change (@None body) with (option_map bd None). apply map_nth.
Qed.
Lemma srcs_out h : (forall a c, get h a = Some c -> 0 <= cnt c) -> srcs h = flat_map out (somes (map (option_map bd) h)).
Proof.
  unfold srcs, get. induction h as [|[c|] h IH]; intro P; cbn [flat_map map option_map somes]; auto.
  - rewrite IH by (intros a d G; apply (P (S a) d G)). cbn [contrib]. rewrite refs_out.
    pose proof (P O c eq_refl). replace (cnt c <? 0) with false by (symmetry; apply Z.ltb_ge; lia). reflexivity.
  - rewrite IH by (intros a d G; apply (P (S a) d G)). reflexivity.
Qed.
Lemma rep_holders h s a c : Rep h s -> get h a = Some c -> holders s a = cnt c.
Proof.
  intros R G. pose proof (r_inv _ _ R a) as I. rewrite G in I. destruct I as [I _].
  destruct (r_cnt _ _ R a c G) as [C _]. rewrite (I C). unfold holders, occurrences.
  rewrite (r_cells _ _ R), <- srcs_out by (intros b d Gb; apply (r_cnt _ _ R b d Gb)). lia.
Qed.
Lemma rep_refers h s b a : Rep h s -> refers s b a -> exists c, get h b = Some c /\ 0 <= cnt c /\ In a (refs (bd c)).
Proof.
  intros R (x & E & I). rewrite (at_rep h) in E by apply R. destruct (get h b) as [c|] eqn:G; [|discriminate].
  cbn in E. injection E as <-. exists c. split; auto. split; [apply (r_cnt _ _ R b c G)|]. rewrite refs_out. auto.
Qed.
Lemma rep_live h s a : Rep h s -> reachable s a -> exists c, get h a = Some c.
Proof.
  intros R [b [H|H]|b d Q F].
  - destruct (inv_alive h (held s) b) as (c & G & _); eauto; [apply R|]. apply occ_in in H. lia.
  - apply (r_fresh _ _ R); auto.
  - destruct (rep_refers _ _ _ _ R F) as (c & G & C & I).
    destruct (inv_alive h (held s) d) as (e & Ge & _); eauto; [apply R|].
    assert (0 < occ d (srcs h))%nat; [|lia]. apply occ_srcs. eauto.
Qed.
Lemma kept_pinned h s t a : Rep h s -> kept s t a -> pinned h (held s) t a.
Proof.
  intros R. revert a. fix F 2. intros a K. destruct K as [a I|w a W D I].
  - apply pin_ext. auto.
  - destruct (rep_refers _ _ _ _ R I) as (c & G & C & J). eapply pin_ref; eauto.
    destruct D as [D|D]; [left|right; auto]. apply (r_cnt _ _ R w c G); auto.
Qed.
Lemma kept_reachable s t a : kept s t a -> reachable s a.
Proof.
  revert a. fix F 2. intros a K. destruct K as [a I|w a W D I]; [apply reach_own; left; auto|].
  apply reach_ref with w; auto. destruct D as [D|D]; [apply reach_own; right; auto|auto].
Qed.

(** ** The end of every operation *)
Lemma finish h' s1 :
  length h' = length (cells s1) -> Inv h' (held s1) ->
  (forall a c, get h' a = Some c -> at_ s1 a = Some (bd c) /\ 0 <= cnt c /\ (cnt c = 0 <-> In a (fresh s1))) ->
  (forall a, In a (fresh s1) -> exists c, get h' a = Some c) ->
  (forall a c ps es pr w, get h' a = Some c -> bd c = BObject ps es pr w -> NoDup (map fst ps)) ->
  (forall a c, get h' a = Some c -> self_ref a (bd c) = false) ->
  (forall a b, at_ s1 a = Some b -> get h' a = None -> unheld s1 a) ->
  exists s', swept s1 s' /\ Rep h' s'.
Proof.
  intros L I B Fr K SF U. exists (mkS (map (option_map bd) h') (held s1) (fresh s1)).
  assert (Rep h' (mkS (map (option_map bd) h') (held s1) (fresh s1))) as R.
  { split; cbn; auto. intros a c G. apply (B a c G). }
  split; [|exact R]. unfold swept. cbn [cells held fresh]. rewrite map_length. repeat split; auto.
  - intro Un. rewrite (at_rep h') by reflexivity. cut (get h' a = None); [intros ->; reflexivity|]. induction Un as [a N1 N2 _ IH].
    destruct (get h' a) as [c|] eqn:G; [exfalso|auto]. destruct (B a c G) as (_ & C & Z).
    specialize (I a). rewrite G in I. destruct I as [I _]. specialize (I C).
    assert (occ a (held s1) = 0%nat) as O.
    { destruct (occ a (held s1)) eqn:E; auto. exfalso. apply N1, occ_in. lia. }
    destruct (Nat.eq_dec (occ a (srcs h')) 0) as [Q|Q]; [apply N2, Z; lia|].
    assert (0 < occ a (srcs h'))%nat as Q' by lia. apply occ_srcs in Q'. destruct Q' as (b & d & Gb & Cb & Ib).
    destruct (B b d Gb) as (Ab & _). assert (refers s1 b a) as F by (exists (bd d); rewrite <- refs_out; auto).
    specialize (IH b F). rewrite Gb in IH. discriminate.
  - intro N. rewrite (at_rep h') by reflexivity. destruct (get h' a) as [c|] eqn:G.
    + destruct (B a c G) as (A & _). rewrite A. reflexivity.
    + destruct (at_ s1 a) as [b|] eqn:A; auto. exfalso. apply N. eapply U; eauto.
Qed.
