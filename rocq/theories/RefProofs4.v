(** The operations that let go of nothing, and the pieces of the others. *)
From Coq Require Import ZArith List Bool Lia.
Import ListNotations.
From Verif Require Import Bits RefModel RefSpec RefProofs RefProofs2 RefProofs3.
Local Open Scope Z_scope.

Lemma rep_swept h s : Rep h s -> swept s s.
Proof.
  intro R. destruct (finish h s) as (s' & S & R'); [| | | | | | |].
  - rewrite (length_bodies h s); auto. apply R.
  - apply R.
  - intros a c G. rewrite (at_rep h) by apply R. rewrite G. split; [reflexivity|]. apply (r_cnt _ _ R a c G).
  - apply R.
  - apply R.
  - apply R.
  - intros a b A N. rewrite (at_rep h) in A by apply R. rewrite N in A. discriminate.
  - assert (s' = s) as ->; auto. destruct S as (_ & H & F & _). destruct s', s. cbn in *.
    pose proof (r_cells _ _ R). pose proof (r_cells _ _ R'). cbn in *. congruence.
Qed.
Lemma rep_ext h s s' : cells s' = cells s -> (forall a, occ a (held s') = occ a (held s)) ->
  (forall a, In a (fresh s') <-> In a (fresh s)) -> Rep h s -> Rep h s'.
Proof.
  intros C H F R. split.
  - rewrite C. apply R.
  - eapply Inv_ext; [|apply R]. intro. symmetry. auto.
  - intros a c G. rewrite F. apply (r_cnt _ _ R a c G).
  - intros a I. apply (r_fresh _ _ R), F, I.
  - apply R.
  - apply R.
Qed.

(** Writing a cell and counting a new reference; [ext] is what is held afterwards. *)
Lemma write_rep h s o c b2 nw ext :
  Rep h s -> get h o = Some c ->
  (forall y, (occ y (refs b2) + occ y ext = occ y (opt_list nw) + occ y (refs (bd c)) + occ y (held s))%nat) ->
  (forall v, nw = Some v -> reachable s v /\ room s v) ->
  keys_ok b2 -> self_ref o b2 = false ->
  exists h', (h2 <- write o b2 h ;; incr_opt nw h2) = Ok h' /\
    Rep h' (settle_opt nw (mkS (cells (assign o b2 s)) ext (fresh s))).
Proof.
  intros R G E V K SB. rewrite (write_ok o b2 h c G). cbn [bind].
  destruct (r_cnt _ _ R o c G) as [C _].
  pose proof (get_lt _ _ _ G) as Lo. pose proof (r_cells _ _ R) as CH.
  assert (forall a, get (set_body o b2 h) a = if Nat.eqb a o then Some (mkC (cnt c) b2) else get h a) as G2.
  { intro a. rewrite get_set_body, G. reflexivity. }
  set (h2 := set_body o b2 h) in *.
  assert (forall y, (occ y (srcs h2) + occ y ext = occ y (opt_list nw) + (occ y (srcs h) + occ y (held s)))%nat) as S2.
  { intro y. pose proof (occ_set_body y h o c b2 G C) as Q. fold h2 in Q. specialize (E y). lia. }
  assert (exists h', incr_opt nw h2 = Ok h' /\ length h' = length h /\
    (forall y, occ y (srcs h') = occ y (srcs h2)) /\
    (forall a, get h' a = option_map (fun d => mkC (cnt d + (if match nw with Some v => Nat.eqb a v | None => false end then 1 else 0)) (bd d)) (get h2 a)))
    as (h' & E' & L' & S' & G').
  { destruct nw as [v|]; cbn [incr_opt].
    - destruct (V v eq_refl) as [Rv Ro]. destruct (rep_live _ _ _ R Rv) as (cv & Gv).
      unfold room in Ro. rewrite (rep_holders _ _ _ _ R Gv) in Ro. destruct (r_cnt _ _ R v cv Gv) as [Cv _].
      assert (exists d, get h2 v = Some d /\ cnt d = cnt cv) as (d & Gd & Cd).
      { rewrite G2. destruct (Nat.eqb v o) eqn:X; [|eauto]. apply Nat.eqb_eq in X. subst.
        eexists; split; eauto. cbn. congruence. }
      rewrite (incr_ok v h2 d Gd) by lia. eexists. split; [reflexivity|]. split; [rewrite length_set_cnt; apply length_set_body|].
      split; [intro y; apply (occ_set_cnt y h2 v d _ Gd); lia|].
      intro a. rewrite get_set_cnt. destruct (Nat.eqb a v) eqn:X.
      + apply Nat.eqb_eq in X. subst. rewrite Gd. reflexivity.
      + destruct (get h2 a) as [q|]; auto. cbn. rewrite Z.add_0_r. destruct q; auto.
    - exists h2. split; auto. split; [apply length_set_body|]. split; auto. intro a. destruct (get h2 a) as [q|]; auto. cbn.
      rewrite Z.add_0_r. destruct q; auto. }
  exists h'. split; auto.
  assert (forall a, at_ (assign o b2 s) a = option_map bd (get h' a)) as AT.
  { intro a. rewrite at_assign by (rewrite (length_bodies h s); auto). rewrite (at_rep h) by auto. rewrite G', G2.
    destruct (Nat.eqb a o); auto. destruct (get h a); auto. }
  split.
  - rewrite cells_settle. cbn [cells]. apply nth_ext with (d := None) (d' := None).
    + rewrite map_length. rewrite length_assign by (rewrite (length_bodies h s); auto). rewrite (length_bodies h s); auto.
    + intros a _. change (nth a (cells (assign o b2 s)) None) with (at_ (assign o b2 s) a). rewrite AT, get_nth.
      change (@None body) with (option_map bd None). symmetry. apply map_nth.
  - rewrite held_settle. cbn [held]. intro y. rewrite S'. specialize (S2 y). pose proof (r_inv _ _ R y) as I.
    rewrite G', G2. destruct (Nat.eqb y o) eqn:X.
    + apply Nat.eqb_eq in X. subst y. rewrite G in I. cbn [option_map cnt]. destruct I as [I _]. specialize (I C).
      destruct nw as [v|].
      * cbn [opt_list] in S2. rewrite occ_cons in S2. destruct (Nat.eqb o v) eqn:Y.
        -- apply Nat.eqb_eq in Y. subst v. destruct (Nat.eq_dec o o); [|congruence]. cbn in S2. lia.
        -- apply Nat.eqb_neq in Y. destruct (Nat.eq_dec v o); [congruence|]. cbn in S2. lia.
      * cbn in S2. lia.
    + destruct (get h y) as [d|] eqn:Gy.
      * destruct (r_cnt _ _ R y d Gy) as [Cd _]. cbn [option_map cnt]. destruct I as [I _]. specialize (I Cd).
        destruct nw as [v|].
        -- cbn [opt_list] in S2. rewrite occ_cons in S2. destruct (Nat.eqb y v) eqn:Y.
           ++ apply Nat.eqb_eq in Y. subst v. destruct (Nat.eq_dec y y); [|congruence]. cbn in S2. lia.
           ++ apply Nat.eqb_neq in Y. destruct (Nat.eq_dec v y); [congruence|]. cbn in S2. lia.
        -- cbn in S2. lia.
      * cbn [option_map]. destruct nw as [v|]; cbn [opt_list] in S2; [|cbn in S2; lia].
        rewrite occ_cons in S2. destruct (Nat.eq_dec v y) as [->|Y]; [|cbn in S2; lia]. exfalso.
        destruct (V y eq_refl) as [Rv _]. destruct (rep_live _ _ _ R Rv) as (cv & Gv). congruence.
  - intros a d Gd. rewrite G' in Gd. rewrite in_settle. cbn [fresh].
    assert (exists d0, get h a = Some d0 /\ cnt d = cnt d0 + (if match nw with Some v => Nat.eqb a v | None => false end then 1 else 0)) as (d0 & G0 & Cd).
    { rewrite G2 in Gd. destruct (Nat.eqb a o) eqn:X.
      - apply Nat.eqb_eq in X. subst a. cbn in Gd. injection Gd as <-. eauto.
      - destruct (get h a) as [d0|]; [|discriminate]. cbn in Gd. injection Gd as <-. eauto. }
    destruct (r_cnt _ _ R a d0 G0) as [C0 Z0]. rewrite <- Z0, Cd. destruct nw as [v|].
    + destruct (Nat.eqb a v) eqn:Y.
      * apply Nat.eqb_eq in Y. subst v. split; [lia|]. split; [lia|]. intros [_ Q]. congruence.
      * apply Nat.eqb_neq in Y. split; [lia|]. split; [intro; split; [lia|congruence]|lia].
    + split; [lia|]. split; [intro; split; [lia|congruence]|lia].
  - intros a. rewrite in_settle. cbn [fresh]. intros [I _]. destruct (r_fresh _ _ R a I) as (d & Gd).
    rewrite G', G2. destruct (Nat.eqb a o); [cbn; eauto|]. rewrite Gd. cbn; eauto.
  - intros a d ps es pr w Gd B. rewrite G', G2 in Gd. destruct (Nat.eqb a o) eqn:X.
    + cbn in Gd. injection Gd as <-. cbn in B. rewrite B in K. exact K.
    + destruct (get h a) as [d0|] eqn:G0; [|discriminate]. cbn in Gd. injection Gd as <-. cbn in B.
      eapply (r_keys _ _ R); eauto.
  - intros a d Gd. rewrite G', G2 in Gd. destruct (Nat.eqb a o) eqn:X.
    + apply Nat.eqb_eq in X. subst a. cbn in Gd. injection Gd as <-. exact SB.
    + destruct (get h a) as [d0|] eqn:G0; [|discriminate]. cbn in Gd. injection Gd as <-. cbn.
      apply (r_self _ _ R); auto.
Qed.

(** Letting go of a reference that is counted as held. *)
Lemma decr_finish h x s1 : Rep h (hold x s1) ->
  exists h' s', decr_ref x h = Ok h' /\ Post h (held s1) h' /\ swept s1 s' /\ Rep h' s'.
Proof.
  intro R. destruct (decr_ref_ok x h (held s1) (r_inv _ _ R)) as (h' & D & P).
  pose proof (r_cells _ _ R) as CH. cbn [cells hold] in CH.
  assert (forall a d, get h' a = Some d -> exists d0, get h a = Some d0 /\ bd d = bd d0 /\ 0 <= cnt d /\
     (cnt d = 0 <-> In a (fresh s1))) as F.
  { intros a d Gd. destruct (p_body _ _ _ P a d Gd) as (d0 & G0 & B0 & N0 & L0). exists d0. split; auto. split; auto.
    destruct (r_cnt _ _ R a d0 G0) as [C0 Z0]. cbn [fresh hold] in Z0.
    destruct (Z.eq_dec (cnt d0) 0) as [Y|Y].
    - pose proof (p_same _ _ _ P a d0 G0 ltac:(lia)) as W. assert (d = d0) by congruence. subst. split; [lia|auto].
    - specialize (N0 ltac:(lia)). split; [lia|]. split; [lia|tauto]. }
  destruct (finish h' s1) as (s' & S & R'); [| | | | | | |eauto 10].
  - rewrite (p_len _ _ _ P). symmetry. apply length_bodies. auto.
  - apply P.
  - intros a d Gd. destruct (F a d Gd) as (d0 & G0 & B0 & Q). rewrite (at_rep h) by auto. rewrite G0, B0. auto.
  - intros a Fa. destruct (r_fresh _ _ R a Fa) as (d & Gd). exists d. apply (p_same _ _ _ P); auto.
    apply (r_cnt _ _ R a d Gd) in Fa. lia.
  - intros a d ps es pr w Gd B. destruct (F a d Gd) as (d0 & G0 & B0 & Q). rewrite B0 in B. eapply (r_keys _ _ R); eauto.
  - intros a d Gd. destruct (F a d Gd) as (d0 & G0 & B0 & Q). rewrite B0. apply (r_self _ _ R); auto.
  - intros a b A N. rewrite (at_rep h) in A by auto. destruct (get h a) as [d|] eqn:Gd; [|discriminate].
    pose proof (p_freed _ _ _ P a d Gd N) as U. clear - U R CH. induction U as [a d Gd Cd Nd _ IH]. constructor; auto.
    + intro Fa. apply (r_cnt _ _ R a d Gd) in Fa. lia.
    + intros b (y & Hy & Iy). rewrite (at_rep h) in Hy by auto. destruct (get h b) as [e|] eqn:Ge; [|discriminate].
      cbn in Hy. injection Hy as <-. apply (IH b e); auto.
      * apply (r_cnt _ _ R b e Ge).
      * rewrite refs_out. auto.
Qed.

(** ** What survives *)
Lemma surv_kept h s ts a h0 h1 : Rep h s -> (forall w, ~ In w ts -> get h0 w = get h w) ->
  (forall w c, get h w = Some c -> exists b, get h0 w = Some (mkC (cnt c) b)) ->
  Post h0 (held s) h1 -> kept_or_fresh s ts a -> alive h1 a.
Proof.
  intros R O B P [F|K].
  - destruct (r_fresh _ _ R a F) as (c & G). apply (r_cnt _ _ R a c G) in F. destruct (B a c G) as (b & G0).
    exists (mkC (cnt c) b). split; [apply (p_same _ _ _ P); auto; cbn; lia|cbn; lia].
  - destruct (pinned_survives h (held s) ts h0 h1 a O P (kept_pinned h s ts a R K)) as (c & G & C). exists c. split; auto. lia.
Qed.
Lemma set_body_counts h o b : forall w c, get h w = Some c -> exists b', get (set_body o b h) w = Some (mkC (cnt c) b').
Proof.
  intros w c G. rewrite get_set_body. destruct (Nat.eqb w o) eqn:X.
  - apply Nat.eqb_eq in X. subst. rewrite G. cbn. eauto.
  - exists (bd c). destruct c; auto.
Qed.
Lemma set_body_others h o b : forall w, ~ In w [o] -> get (set_body o b h) w = get h w.
Proof.
  intros w N. rewrite get_set_body. destruct (Nat.eqb w o) eqn:X; auto. apply Nat.eqb_eq in X. subst. exfalso. apply N. cbn; auto.
Qed.
Lemma kept_pos h s ts a : Rep h s -> kept s ts a -> exists c, get h a = Some c /\ 0 < cnt c.
Proof.
  intros R K. apply (pinned_survives h (held s) ts h h a); auto; [apply Post_refl, R|]. apply kept_pinned; auto.
Qed.
Lemma kept_mono s s' ts ts' a : (forall w, ~ In w ts -> forall y, refers s w y -> refers s' w y) ->
  (forall x, In x (held s) -> In x (held s')) -> (forall x, In x (fresh s) -> In x (fresh s') ) ->
  (forall w, ~ In w ts -> ~ In w ts') ->
  kept s ts a -> kept s' ts' a.
Proof.
  intros E H F M. revert a. fix IH 2. intros a K. destruct K as [a I|w a W D I].
  - apply kept_held. auto.
  - apply kept_ref with w; auto. destruct D; auto.
Qed.
Lemma fresh_settle_id v s : ~ In v (fresh s) -> settle v s = s.
Proof.
  intro N. destruct s as [c h f]. unfold settle. cbn in *. f_equal. induction f as [|x f IH]; auto. cbn in *.
  destruct (Nat.eqb x v) eqn:X; cbn; [apply Nat.eqb_eq in X; subst; tauto|]. rewrite IH; tauto.
Qed.

(** ** New cells *)
Lemma get_app h x a : get (h ++ [x]) a = if Nat.eqb a (length h) then x else get h a.
Proof.
  rewrite !get_nth. destruct (Nat.eqb a (length h)) eqn:X.
  - apply Nat.eqb_eq in X. subst. rewrite app_nth2, Nat.sub_diag by lia. reflexivity.
  - apply Nat.eqb_neq in X. destruct (Nat.lt_ge_cases a (length h)); [apply app_nth1; auto|].
    rewrite !nth_overflow by (rewrite ?app_length; cbn; lia). reflexivity.
Qed.
Lemma get_beyond h a : (length h <= a)%nat -> get h a = None.
Proof. intro L. rewrite get_nth. apply nth_overflow. auto. Qed.
Lemma new_rep h s b (one : bool) : Rep h s -> refs b = [] -> keys_ok b ->
  Rep (h ++ [Some (mkC (if one then 1 else 0) b)])
      ((if one then hold (next s) else get_fresh (next s)) (add b s)).
Proof.
  intros R B K. assert (next s = length h) as N by (apply length_bodies, R). rewrite N.
  pose proof (get_beyond h (length h) (le_n _)) as GN.
  assert (forall y, occ y (srcs (h ++ [Some (mkC (if one then 1 else 0) b)])) = occ y (srcs h)) as S.
  { intro y. unfold srcs. rewrite flat_map_app, occ_app. cbn [flat_map contrib cnt bd]. rewrite B.
    destruct one; cbn; lia. }
  split.
  - destruct one; cbn [cells hold get_fresh add]; rewrite map_app; cbn [map option_map bd]; rewrite (r_cells _ _ R); reflexivity.
  - intro y. rewrite S. rewrite get_app. pose proof (r_inv _ _ R y) as I. destruct (Nat.eqb y (length h)) eqn:X.
    + apply Nat.eqb_eq in X. subst y. rewrite GN in I. cbn [cnt]. destruct one; cbn [held hold get_fresh add]; [rewrite occ_cons; destruct (Nat.eq_dec (length h) (length h)); [|congruence]|]; lia.
    + apply Nat.eqb_neq in X. destruct one; cbn [held hold get_fresh add]; [rewrite occ_cons; destruct (Nat.eq_dec (length h) y); [congruence|]|]; exact I.
  - intros a c. rewrite get_app. destruct (Nat.eqb a (length h)) eqn:X.
    + apply Nat.eqb_eq in X. subst a. intros [= <-]. cbn [cnt].
      destruct one; cbn [fresh hold get_fresh add]; split; try lia.
      * split; [lia|]. intro F. destruct (r_fresh _ _ R _ F) as (c & Gc). congruence.
      * cbn. tauto.
    + apply Nat.eqb_neq in X. intro G. destruct (r_cnt _ _ R a c G) as [C Z]. split; auto.
      destruct one; cbn [fresh hold get_fresh add]; auto. rewrite Z. cbn. split; [auto|]. intros [Q|Q]; congruence.
  - intros a F. rewrite get_app. destruct (Nat.eqb a (length h)) eqn:X; [eauto|]. apply Nat.eqb_neq in X.
    destruct one; cbn [fresh hold get_fresh add] in F; [apply (r_fresh _ _ R); auto|]. destruct F as [F|F]; [congruence|].
    apply (r_fresh _ _ R); auto.
  - intros a c ps es pr w. rewrite get_app. destruct (Nat.eqb a (length h)).
    + intros [= <-]. cbn. intros ->. exact K.
    + apply (r_keys _ _ R).
  - intros a c. rewrite get_app. destruct (Nat.eqb a (length h)).
    + intros [= <-]. cbn. destruct b as [[?|?|x]|]; cbn in *; auto. discriminate.
    + apply (r_self _ _ R).
Qed.

(** ** Holding *)
Lemma hold_rep h s a : Rep h s -> reachable s a -> room s a ->
  exists h', incr a h = Ok h' /\ Rep h' (settle a (hold a s)).
Proof.
  intros R A Ro. destruct (rep_live _ _ _ R A) as (c & G). unfold room in Ro. rewrite (rep_holders _ _ _ _ R G) in Ro.
  destruct (r_cnt _ _ R a c G) as [C Z]. rewrite (incr_ok a h c G) by lia. eexists. split; [reflexivity|].
  split.
  - cbn [cells settle hold]. rewrite (r_cells _ _ R). apply nth_ext with (d := None) (d' := None).
    + rewrite !map_length. symmetry. apply length_set_cnt.
    + intros x _. change (@None body) with (option_map bd None). rewrite !map_nth, <- !get_nth, get_set_cnt.
      destruct (Nat.eqb x a) eqn:X; auto. apply Nat.eqb_eq in X. subst. rewrite G. reflexivity.
  - cbn [held settle hold]. eapply inv_incr; eauto. apply R.
  - intros x d. rewrite get_set_cnt. change (fresh (settle a (hold a s))) with (fresh (settle_opt (Some a) s)). rewrite in_settle.
    destruct (Nat.eqb x a) eqn:X.
    + apply Nat.eqb_eq in X. subst. rewrite G. cbn. intros [= <-]. cbn. split; [lia|]. split; [lia|]. intros [_ Q]. congruence.
    + apply Nat.eqb_neq in X. intro Gx. destruct (r_cnt _ _ R x d Gx) as [Cx Zx]. rewrite <- Zx. split; auto.
      split; [intro; split; [auto|congruence]|tauto].
  - intros x. change (fresh (settle a (hold a s))) with (fresh (settle_opt (Some a) s)). rewrite in_settle.
    intros [F _]. destruct (r_fresh _ _ R x F) as (d & Gd). rewrite get_set_cnt. destruct (Nat.eqb x a); [rewrite G; cbn|]; eauto.
  - intros x d ps es pr w. rewrite get_set_cnt. destruct (Nat.eqb x a).
    + rewrite G. cbn. intros [= <-]. cbn. apply (r_keys _ _ R a); auto.
    + apply (r_keys _ _ R).
  - intros x d. rewrite get_set_cnt. destruct (Nat.eqb x a) eqn:X.
    + apply Nat.eqb_eq in X. subst. rewrite G. cbn. intros [= <-]. cbn. apply (r_self _ _ R); auto.
    + apply (r_self _ _ R).
Qed.
Lemma release_rep h s a : Rep h s -> In a (held s) -> Rep h (hold a (release a s)).
Proof.
  intros R I. eapply rep_ext; [| | |exact R]; cbn [cells held fresh hold release]; auto; [|tauto].
  intro x. rewrite occ_cons. induction (held s) as [|y l IH]; [destruct I|]. cbn [minus].
  destruct (Nat.eq_dec a y) as [->|N].
  - cbn. destruct (Nat.eq_dec y x); lia.
  - destruct I as [I|I]; [congruence|]. specialize (IH I). rewrite !occ_cons. lia.
Qed.
