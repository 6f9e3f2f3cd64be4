(** The operations on values. *)
From Coq Require Import ZArith List Bool Lia.
Import ListNotations.
From Verif Require Import Bits RefModel RefSpec RefProofs RefProofs2 RefProofs3 RefProofs4.
Local Open Scope Z_scope.

Section Ops.
Variable max : nat.
Definition done (c : call) (h : heap) (s : state) : Prop :=
  exists h' r s1 s', perform max c h = Ok (h', r) /\ effect max c s r s1 /\ swept s1 s' /\ Rep h' s'.
Lemma done_exact c h s h' r s1 : perform max c h = Ok (h', r) -> effect max c s r s1 -> Rep h' s1 -> done c h s.
Proof. intros P E R. exists h', r, s1, s1. split; auto. split; auto. split; auto. apply (rep_swept _ _ R). Qed.

Lemma new_done c h s b one : Rep h s -> refs b = [] -> keys_ok b ->
  perform max c h = Ok (addr (new_cell (if one : bool then 1 else 0) b h)) ->
  effect max c s (AAddr (next s)) ((if one then hold (next s) else get_fresh (next s)) (add b s)) -> done c h s.
Proof.
  intros R B K P E. eapply done_exact; [rewrite P; reflexivity| |apply (new_rep h s b one); auto].
  cbn. rewrite <- (length_bodies h s) by apply R. exact E.
Qed.
Lemma value_new_done h s : Rep h s -> done ValueNew h s.
Proof. intro R. apply (new_done _ h s undef false); cbn; auto. Qed.
Lemma value_new1_done h s : Rep h s -> done ValueNew1 h s.
Proof. intro R. apply (new_done _ h s undef true); cbn; auto. Qed.
Lemma obj_new_done h s : Rep h s -> done ObjNew h s.
Proof. intro R. apply (new_done _ h s (BObject [] [] None false) false); cbn; auto. constructor. Qed.
Lemma incr_done h s a : Rep h s -> allowed (Incr a) s -> done (Incr a) h s.
Proof.
  intros R [A Ro]. destruct (hold_rep h s a R A Ro) as (h' & E & R').
  eapply done_exact; [cbn; unfold plainly; rewrite E; reflexivity| |exact R']. cbn; auto.
Qed.
Lemma decr_done h s a : Rep h s -> allowed (Decr a) s -> done (Decr a) h s.
Proof.
  intros R A. destruct (decr_finish h a (release a s)) as (h' & s' & E & _ & SW & R'); [apply release_rep; auto|].
  exists h', ANone, (release a s), s'. cbn [perform effect]. unfold plainly. rewrite E. auto.
Qed.
Lemma shared_done h s v : Rep h s -> allowed (IsShared v) s -> done (IsShared v) h s.
Proof.
  intros R A. destruct (rep_live _ _ _ R A) as (c & G).
  eapply done_exact; [cbn; unfold is_shared; rewrite G; reflexivity| |exact R].
  cbn. rewrite (rep_holders _ _ _ _ R G). auto.
Qed.

(** *** Values *)
Definition target (p : payload) : option nat := match p with PPlain _ => None | PObject o => Some o | PVariable v => Some v end.
Lemma refs_target p : refs (BValue p) = opt_list (target p). Proof. destruct p; reflexivity. Qed.
Lemma self_target v p : (forall x, target p = Some x -> x <> v) -> self_ref v (BValue p) = false.
Proof. destruct p as [|o|x]; cbn; auto. intro H. apply Nat.eqb_neq. apply H. auto. Qed.
Lemma reset_eq v n p h : get h v = Some (mkC n (BValue p)) -> self_ref v (BValue p) = false ->
  reset v h = (h1 <- decr_opt (target p) h ;; write v undef h1).
Proof.
  intros G S. unfold reset. rewrite G. destruct p as [|o|x]; cbn in *; auto. rewrite S. reflexivity.
Qed.
Lemma incr_payload_eq p h : incr_payload p h = incr_opt (target p) h.
Proof. destruct p; reflexivity. Qed.
Lemma rep_value h s v p : Rep h s -> value_of s v p -> exists n, get h v = Some (mkC n (BValue p)) /\ 0 <= n.
Proof.
  intros R V. unfold value_of in V. rewrite (at_rep h) in V by apply R. destruct (get h v) as [[n b]|] eqn:G; [|discriminate].
  cbn in V. injection V as ->. exists n. split; auto. apply (r_cnt _ _ R _ _ G).
Qed.

Lemma reset_core h s v n p p2 : Rep h s -> get h v = Some (mkC n (BValue p)) ->
  kept_or_fresh s [v] v ->
  (forall x, target p2 = Some x -> kept_or_fresh s [v] x /\ room s x) -> self_ref v (BValue p2) = false ->
  exists hx h' s', reset v h = Ok hx /\ (h2 <- write v (BValue p2) hx ;; incr_opt (target p2) h2) = Ok h' /\
    (forall f cf, f <> v -> kept s [v] f -> get h f = Some cf -> exists n', get hx f = Some (mkC n' (bd cf)) /\ 0 < n') /\
    swept (settle_opt (target p2) (assign v (BValue p2) s)) s' /\ Rep h' s'.
Proof.
  intros R G Kv K2 S2.
  pose proof (r_self _ _ R _ _ G) as S1. cbn [bd] in S1.
  destruct (r_cnt _ _ R _ _ G) as [C _]. cbn [cnt] in C.
  assert (forall a h1, kept_or_fresh s [v] a -> Post (set_body v undef h) (held s) h1 -> alive h1 a) as SV.
  { intros a h1 Ka P. eapply surv_kept; [exact R| | |exact P|exact Ka].
    - apply set_body_others.
    - apply set_body_counts. }
  assert (forall y, occ y (refs (BValue p)) = occ y (opt_list (target p) ++ refs undef)) as E0.
  { intro y. rewrite refs_target. cbn. rewrite app_nil_r. auto. }
  destruct (phase h v _ undef (target p) (held s) G C (r_inv _ _ R) E0) as (h1 & D & P); [intros h1 P; apply SV; auto|].
  destruct (core h s v _ undef (BValue p2) (target p) (target p2) None R G) as (h' & s' & E & SW & R').
  - exact E0.
  - intro y. rewrite refs_target. cbn. rewrite app_nil_r. auto.
  - intros h2 P2. apply SV; auto.
  - intros x X. destruct (K2 x X) as [Kx Rx]. split; [exact Rx|]. intros h2 P2. apply SV; auto.
  - exact I.
  - exact S2.
  - cbn [bd] in D. rewrite D in E. cbn [bind] in E.
    destruct (SV v h1 Kv P) as (cv & Gv & Cv).
    assert (get (set_body v (BValue p) h1) v = Some (mkC (cnt cv) (BValue p))) as Gv'.
    { rewrite get_set_body, Nat.eqb_refl, Gv. reflexivity. }
    exists (set_body v undef h1), h', s'.
    rewrite (reset_eq v n p h G S1), D. cbn [bind]. rewrite (write_ok _ _ _ _ Gv'), set_body_set_body.
    split; auto. rewrite (write_ok _ _ _ _ Gv'), set_body_set_body in E. cbn [bind] in E.
    assert (get (set_body v undef h1) v = Some (mkC (cnt cv) undef)) as Gv2.
    { rewrite get_set_body, Nat.eqb_refl, Gv. reflexivity. }
    rewrite (write_ok _ _ _ _ Gv2), set_body_set_body. cbn [bind].
    split; auto. split; [|auto].
    intros f cf N Kf Gf. rewrite get_set_body. apply Nat.eqb_neq in N. rewrite N. apply Nat.eqb_neq in N.
    destruct (pinned_survives h (held s) [v] (set_body v undef h) h1 f (set_body_others h v undef) P (kept_pinned h s [v] f R Kf)) as (c & Gc & Cc).
    destruct (p_body _ _ _ P f c Gc) as (c0 & G0 & B0 & _). rewrite get_set_body in G0. apply Nat.eqb_neq in N. rewrite N in G0.
    assert (c0 = cf) by congruence. subst c0. exists (cnt c). rewrite Gc. destruct c as [cc bb]; cbn in *. subst bb. auto.
Qed.

Lemma make_plain_done h s v n : Rep h s -> allowed (MakePlain v n) s -> done (MakePlain v n) h s.
Proof.
  intros R [[p Vp] K]. destruct (rep_value h s v p R Vp) as (m & G & _).
  destruct (reset_core h s v m p (PPlain n) R G K) as (hx & h' & s' & E1 & E2 & _ & SW & R'); [discriminate|reflexivity|].
  exists h', ANone, (assign v (BValue (PPlain n)) s), s'. cbn [perform]. unfold make_plain. rewrite E1. cbn [bind].
  cbn [target incr_opt] in E2. destruct (write v _ hx) as [h2| |] eqn:W; cbn [bind] in E2; try discriminate.
  injection E2 as ->. cbn. auto.
Qed.
Lemma assign_same h s v c : Rep h s -> get h v = Some c -> assign v (bd c) s = s.
Proof.
  intros R G. pose proof (get_lt _ _ _ G) as L. rewrite <- (length_bodies h s) in L by apply R.
  assert (cells (assign v (bd c) s) = cells s) as E.
  { apply nth_ext with (d := None) (d' := None); [apply length_assign; auto|]. intros x _.
    change (at_ (assign v (bd c) s) x = at_ s x). rewrite at_assign by auto. destruct (Nat.eqb x v) eqn:X; auto.
    apply Nat.eqb_eq in X. subst. rewrite (at_rep h) by apply R. rewrite G. reflexivity. }
  destruct s; unfold assign in *; cbn in *. congruence.
Qed.
Lemma not_fresh h s b a c : Rep h s -> get h b = Some c -> In a (refs (bd c)) -> ~ In a (fresh s).
Proof.
  intros R G I F. destruct (r_fresh _ _ R a F) as (d & Gd). apply (r_cnt _ _ R a d Gd) in F.
  pose proof (r_inv _ _ R a) as Q. rewrite Gd in Q. destruct Q as [Q _]. specialize (Q ltac:(lia)).
  assert (0 < occ a (srcs h))%nat; [|lia]. apply occ_srcs. exists b, c. split; auto. split; auto. apply (r_cnt _ _ R b c G).
Qed.
Lemma make_object_done h s v o : Rep h s -> allowed (MakeObject v o) s -> done (MakeObject v o) h s.
Proof.
  intros R ([p Vp] & K & IO & Ro & KO). destruct (rep_value h s v p R Vp) as (m & G & _).
  cbn [allowed] in *. destruct (same_object (BValue p) o) eqn:SO.
  - destruct p as [|o'|]; try discriminate. cbn in SO. apply Nat.eqb_eq in SO. subst o'.
    eapply done_exact.
    + cbn [perform]. unfold make_object. rewrite G. cbn [bd same_object]. rewrite Nat.eqb_refl. reflexivity.
    + cbn. split; [reflexivity|]. reflexivity.
    + pose proof (assign_same h s v _ R G) as AS. cbn [bd] in AS. rewrite AS. rewrite fresh_settle_id; auto.
      eapply not_fresh; eauto. cbn; auto.
  - assert (kept_or_fresh s [v] o) as KO'.
    { destruct KO as [KO|KO]; auto. unfold value_of in *. rewrite Vp in KO. injection KO as ->. cbn in SO. rewrite Nat.eqb_refl in SO. discriminate. }
    destruct (reset_core h s v m p (PObject o) R G K) as (hx & h' & s' & E1 & E2 & _ & SW & R').
    + intros x [= <-]. auto.
    + reflexivity.
    + exists h', ANone, (settle o (assign v (BValue (PObject o)) s)), s'. cbn [perform]. unfold make_object. rewrite G.
      cbn [bd]. rewrite SO, E1. cbn [bind]. cbn [target incr_opt] in E2. unfold plainly. rewrite E2. cbn. auto.
Qed.

Lemma kept_hold s ts a x : kept_or_fresh s ts a -> kept_or_fresh (settle x (hold x s)) ts a.
Proof.
  assert (forall w, In w (fresh s) -> In w (fresh (settle x (hold x s))) \/ w = x) as F.
  { intros w F. destruct (Nat.eq_dec w x); auto. left. cbn. apply filter_In. split; auto.
    apply Nat.eqb_neq in n. rewrite n. reflexivity. }
  assert (forall a, kept s ts a -> kept (settle x (hold x s)) ts a) as K.
  { fix IH 2. intros b K. destruct K as [b I|w b W D I].
    - apply kept_held. cbn. auto.
    - apply kept_ref with w; auto. destruct D as [D|D]; [|auto]. destruct (F w D) as [Q|Q]; [auto|].
      subst. right. apply kept_held. cbn. auto. }
  intros [Q|Q]; [|right; auto]. destruct (F a Q) as [P|P]; [left; auto|]. subst. right. apply kept_held. cbn; auto.
Qed.
Lemma make_variable_done h s v x : Rep h s -> allowed (MakeVariable v x) s -> done (MakeVariable v x) h s.
Proof.
  intros R ([p Vp] & K & Rx & Ro & N & NV). destruct (rep_value h s v p R Vp) as (m & G & C).
  destruct (hold_rep h s x R Rx Ro) as (h1 & E1 & R1).
  assert (exists m1, get h1 v = Some (mkC m1 (BValue p)) /\ 0 <= m1) as (m1 & G1 & C1).
  { apply (rep_value h1 (settle x (hold x s)) v p); auto. }
  pose proof (r_self _ _ R1 _ _ G1) as S1. cbn [bd] in S1.
  assert (forall h2, Post (set_body v undef h1) (x :: held s) h2 -> alive h2 v) as A.
  { intros h2 P. eapply (surv_kept h1 (settle x (hold x s)) [v]); [exact R1| | |exact P|].
    - apply set_body_others.
    - apply set_body_counts.
    - apply kept_hold. auto. }
  destruct (core h1 (settle x s) v _ undef (BValue (PVariable x)) (target p) None (Some x) R1 G1) as (h' & s' & E & SW & R').
  - intro y. cbn [bd]. rewrite refs_target. cbn. rewrite app_nil_r. reflexivity.
  - intro y. reflexivity.
  - exact A.
  - discriminate.
  - exact I.
  - cbn. apply Nat.eqb_neq. auto.
  - exists h', ANone, (settle x (assign v (BValue (PVariable x)) s)), s'.
    cbn [perform]. unfold make_variable. rewrite E1. cbn [bind]. rewrite G1.
    apply Nat.eqb_neq in N. rewrite N. cbn [orb].
    destruct (same_variable (bd (mkC m1 (BValue p))) x) eqn:SV.
    { exfalso. destruct p as [| |y]; try discriminate. cbn in SV. apply Nat.eqb_eq in SV. subst y. auto. }
    rewrite (reset_eq v m1 p h1 G1 S1).
    destruct (decr_opt (target p) h1) as [h2| |] eqn:D; cbn [bind] in E; try discriminate.
    cbn [bind]. unfold write in E. destruct (live h2 v) eqn:L; cbn [bind incr_opt] in E; [|discriminate].
    injection E as <-. apply live_get in L. destruct L as [c2 G2].
    rewrite (write_ok v undef h2 c2 G2). cbn [bind].
    assert (get (set_body v undef h2) v = Some (mkC (cnt c2) undef)) as G3 by (rewrite get_set_body, Nat.eqb_refl, G2; reflexivity).
    rewrite (write_ok _ _ _ _ G3), set_body_set_body. cbn. split; auto.
Qed.

(** *** Copying *)
Lemma assign_assign s o b b' : (o < length (cells s))%nat -> assign o b (assign o b' s) = assign o b s.
Proof.
  intro L. assert (cells (assign o b (assign o b' s)) = cells (assign o b s)) as E.
  { apply nth_ext with (d := None) (d' := None); [rewrite !length_assign; auto; rewrite length_assign; auto|]. intros x _.
    change (at_ (assign o b (assign o b' s)) x = at_ (assign o b s) x). rewrite !at_assign; auto.
    - destruct (Nat.eqb x o); auto.
    - rewrite length_assign; auto. }
  destruct s; unfold assign in *; cbn in *. congruence.
Qed.
(** the protection of the old referent: incrementing and decrementing cancel *)
Lemma incr_reset h s t n x : Rep h s -> get h t = Some (mkC n (BValue (PVariable x))) -> x <> t -> room s x ->
  (h1 <- incr x h ;; reset t h1) = Ok (set_body t undef h).
Proof.
  intros R G N Ro.
  destruct (inv_alive h (held s) x) as (c & Gx & Cx); [apply R| |].
  { assert (0 < occ x (srcs h))%nat; [|lia]. apply occ_srcs. eexists _, _. split; [exact G|].
    split; [apply (r_cnt _ _ R _ _ G)|cbn; auto]. }
  unfold room in Ro. rewrite (rep_holders _ _ _ _ R Gx) in Ro.
  rewrite (incr_ok x h c Gx) by lia. cbn [bind]. unfold reset. rewrite get_set_cnt.
  pose proof N as N'. apply Nat.eqb_neq in N'. rewrite Nat.eqb_sym, N', G, N'.
  unfold decr_ref. cbn [decr]. rewrite get_set_cnt, Nat.eqb_refl, Gx. cbn [option_map cnt bd].
  replace (cnt c + 1 <=? 0) with false by (symmetry; apply Z.leb_gt; lia).
  replace (cnt c + 1 - 1 <=? 0) with false by (symmetry; apply Z.leb_gt; lia). cbn [bind].
  assert (set_cnt x (cnt c + 1 - 1) (set_cnt x (cnt c + 1) h) = h) as ->.
  { apply heap_ext; [rewrite !length_set_cnt; auto|]. intro y. rewrite !get_set_cnt.
    destruct (Nat.eqb y x) eqn:Y; auto. apply Nat.eqb_eq in Y. subst. rewrite Nat.eqb_refl, Gx. cbn.
    f_equal. destruct c as [cc cb]. cbn. f_equal. lia. }
  apply (write_ok _ _ _ _ G).
Qed.
Lemma copy_done h s t f : Rep h s -> allowed (Copy t f) s -> done (Copy t f) h s.
Proof.
  intros R ([p Vp] & Kt & Kf & (q & Vq & Rq) & NS & RV).
  destruct (rep_value h s t p R Vp) as (nt & Gt & _). destruct (rep_value h s f q R Vq) as (nf & Gf & _).
  destruct (kept_pos h s [t] t R Kt) as (ct & Gt' & Ct). rewrite Gt in Gt'. injection Gt' as <-. cbn [cnt] in Ct.
  destruct (Nat.eq_dec t f) as [->|N].
  - eapply done_exact.
    + cbn [perform]. unfold copy, copy_move. rewrite Nat.eqb_refl. reflexivity.
    + cbn. split; [reflexivity|]. exists q. split; auto.
    + pose proof (assign_same h s f _ R Gf) as AS. cbn [bd] in AS. rewrite AS. auto.
  - specialize (NS N). pose proof N as N'. apply Nat.eqb_neq in N'.
    assert (settle_opt (target q) (assign t (BValue q) s) = assign t (BValue q) s) as SE.
    { destruct (target q) as [y|] eqn:T; auto. cbn [settle_opt]. apply fresh_settle_id. cbn [fresh assign].
      eapply not_fresh; [exact R|exact Gf|]. cbn [bd]. rewrite refs_target, T. cbn; auto. }
    assert (forall y, target q = Some y -> y <> t) as TN.
    { intros y T ->. apply NS. exists (BValue q). split; auto. rewrite <- refs_out, refs_target, T. cbn; auto. }
    assert (forall y, target q = Some y -> room s y) as TR.
    { intros y T. apply Rq. rewrite <- refs_out, refs_target, T. cbn; auto. }
    assert (forall x, p = PVariable x -> x <> t) as PN.
    { intros x -> ->. pose proof (r_self _ _ R _ _ Gt) as S. cbn in S. rewrite Nat.eqb_refl in S. discriminate. }
    destruct (match p with PVariable x => Some x | _ => None end) as [x|] eqn:OV.
    + (* a variable is overwritten *)
      destruct p as [| |x']; try discriminate. injection OV as ->. specialize (PN x eq_refl).
      pose proof (incr_reset h s t nt x R Gt PN (RV x Vp)) as IR.
      assert (nf <> 0) as NF.
      { assert (exists c, get h f = Some c /\ 0 < cnt c) as (c & Gc & Cc).
        { destruct Kf as [Kf|Kf]; [apply (kept_pos h s [t]); auto|].
          apply (inv_alive h (held s)); [apply R|]. assert (0 < occ f (srcs h))%nat; [|lia]. apply occ_srcs.
          exists t, (mkC nt (BValue (PVariable f))). unfold value_of in *. rewrite Vp in Kf. injection Kf as ->.
          split; auto. cbn. split; [lia|auto]. }
        rewrite Gf in Gc. injection Gc as <-. cbn in Cc. lia. }
      destruct (write_rep h s t _ (BValue q) (target q) (x :: held s) R Gt) as (h3 & E3 & R3).
      * intro y. rewrite refs_target. cbn [bd refs]. rewrite !occ_cons. cbn. lia.
      * intros v T. split; [|auto]. apply reach_ref with f.
        -- destruct Kf as [Kf|Kf]; [eapply kept_reachable; eauto|]. apply reach_ref with t; [eapply kept_reachable; eauto|].
           exists (BValue (PVariable f)). split; auto. cbn; auto.
        -- exists (BValue q). split; auto. rewrite <- refs_out, refs_target, T. cbn; auto.
      * exact I.
      * apply self_target. auto.
      * rewrite (write_ok _ _ _ _ Gt) in E3. cbn [bind] in E3.
        destruct (decr_finish h3 x (assign t (BValue q) s)) as (h4 & s' & E4 & _ & SW & R4).
        { rewrite <- SE. destruct (target q) as [y|]; exact R3. }
        exists h4, ANone, (assign t (BValue q) s), s'. split; [|split; [cbn; eauto|auto]].
        cbn [perform]. unfold copy, copy_move. rewrite N', Gt. cbn [cnt bd].
        replace (nt <=? 0) with false by (symmetry; apply Z.leb_gt; auto).
        destruct (incr x h) as [h1| |] eqn:I1; cbn [bind] in IR; try discriminate. cbn [bind]. rewrite IR. cbn [bind].
        rewrite get_set_body. rewrite Nat.eqb_sym, N', Gf.
        assert (get (set_body t undef h) t = Some (mkC nt undef)) as G2 by (rewrite get_set_body, Nat.eqb_refl, Gt; reflexivity).
        rewrite (write_ok _ _ _ _ G2), set_body_set_body. cbn [bind].
        replace (nf =? 0) with false by (symmetry; apply Z.eqb_neq; auto).
        rewrite incr_payload_eq, E3. cbn [bind]. unfold plainly. rewrite E4. reflexivity.
    + (* anything else *)
      assert (kept s [t] f) as Kf'.
      { destruct Kf as [Kf|Kf]; auto. unfold value_of in *. rewrite Vp in Kf. injection Kf as ->. discriminate. }
      destruct (reset_core h s t nt p q R Gt (or_intror Kt)) as (hx & h' & s' & E1 & E2 & KF & SW & R').
      * intros y T. split; auto. right. apply kept_ref with f; [intros [Q|[]]; auto|auto|].
        exists (BValue q). split; auto. rewrite <- refs_out, refs_target, T. cbn; auto.
      * apply self_target. auto.
      * destruct (KF f _ (not_eq_sym N) Kf' Gf) as (n' & Gx & Cx). cbn [bd] in Gx.
        exists h', ANone, (assign t (BValue q) s), s'. split; [|split; [cbn; eauto|rewrite SE in SW; auto]].
        cbn [perform]. unfold copy, copy_move. rewrite N', Gt. cbn [cnt bd].
        replace (nt <=? 0) with false by (symmetry; apply Z.leb_gt; auto).
        assert (match BValue p with BValue (PVariable x) => Some x | _ => None end = None) as OV'.
        { destruct p; auto. }
        rewrite OV'. cbn [bind]. rewrite E1. cbn [bind]. rewrite Gx.
        destruct (write t (BValue q) hx) as [h2| |] eqn:W; cbn [bind] in E2; try discriminate. cbn [bind].
        replace (n' =? 0) with false by (symmetry; apply Z.eqb_neq; lia).
        rewrite incr_payload_eq, E2. reflexivity.
Qed.
End Ops.
