(** Properties, prototypes, replacement; whole histories; what follows for the cells there are. *)
From Coq Require Import ZArith List Bool Lia.
Import ListNotations.
From Verif Require Import Bits RefModel RefSpec RefProofs RefProofs2 RefProofs3 RefProofs4 RefProofs5 RefProofs6.
Local Open Scope Z_scope.

(** ** Lists of properties *)
Lemma lookup_find k ps : lookup k ps = find ps k.
Proof.
  unfold lookup. induction ps as [|[j v] ps IH]; auto. cbn [filter find fst]. destruct (j =? k); auto.
Qed.
Lemma find_store ps k v j : find (store ps k v) j = if j =? k then Some v else find ps j.
Proof.
  induction ps as [|[i w] ps IH]; cbn.
  - rewrite (Z.eqb_sym k j). reflexivity.
  - destruct (i =? k) eqn:E; cbn.
    + apply Z.eqb_eq in E. subst. rewrite (Z.eqb_sym k j). destruct (j =? k); auto.
    + rewrite IH. destruct (i =? j) eqn:X; auto. apply Z.eqb_eq in X. subst. rewrite E. reflexivity.
Qed.
Lemma find_absent ps k : ~ In k (map fst ps) -> find ps k = None.
Proof.
  induction ps as [|[i w] ps IH]; cbn; auto. intro N. destruct (i =? k) eqn:E; [apply Z.eqb_eq in E; tauto|auto].
Qed.
Lemma find_unset ps k j : NoDup (map fst ps) -> find (unset ps k) j = if j =? k then None else find ps j.
Proof.
  induction ps as [|[i w] ps IH]; cbn; intro N.
  - destruct (j =? k); auto.
  - inversion N; subst. destruct (i =? k) eqn:E; cbn.
    + apply Z.eqb_eq in E. subst. rewrite (Z.eqb_sym k j). destruct (j =? k) eqn:X; auto. apply Z.eqb_eq in X. subst.
      apply find_absent. auto.
    + rewrite IH by auto. destruct (i =? j) eqn:X; auto. apply Z.eqb_eq in X. subst. rewrite E. reflexivity.
Qed.
Lemma in_store j ps k v : In j (map fst (store ps k v)) -> j = k \/ In j (map fst ps).
Proof.
  induction ps as [|[i w] ps IH]; cbn; [intuition|]. destruct (i =? k) eqn:E; cbn; intuition.
Qed.
Lemma nodup_store ps k v : NoDup (map fst ps) -> NoDup (map fst (store ps k v)).
Proof.
  induction ps as [|[i w] ps IH]; cbn; intro N; [constructor; cbn; auto; constructor|]. inversion N; subst. destruct (i =? k) eqn:E; cbn.
  - apply Z.eqb_eq in E. subst. auto.
  - constructor; auto. intro I. apply in_store in I. destruct I as [I|I]; [|tauto]. subst. rewrite Z.eqb_refl in E. discriminate.
Qed.
Lemma in_unset j ps k : In j (map fst (unset ps k)) -> In j (map fst ps).
Proof. induction ps as [|[i w] ps IH]; cbn; auto. destruct (i =? k); cbn; intuition. Qed.
Lemma nodup_unset ps k : NoDup (map fst ps) -> NoDup (map fst (unset ps k)).
Proof.
  induction ps as [|[i w] ps IH]; cbn; intro N; auto. inversion N; subst. destruct (i =? k); cbn; auto.
  constructor; auto. intro I. apply in_unset in I. auto.
Qed.
Lemma occ_find y ps k x : find ps k = Some x -> occ y (map snd ps) = occ y (x :: map snd (unset ps k)).
Proof.
  induction ps as [|[i w] ps IH]; cbn [find unset]; [discriminate|]. destruct (i =? k).
  - intros [= ->]. reflexivity.
  - intro F. specialize (IH F). cbn [map snd]. rewrite !occ_cons in *. lia.
Qed.
Lemma unset_absent ps k : find ps k = None -> unset ps k = ps.
Proof. induction ps as [|[i w] ps IH]; cbn; auto. destruct (i =? k); [discriminate|]. intro F. f_equal. auto. Qed.
Lemma occ_store y ps k v : occ y (map snd (store ps k v)) = occ y (v :: map snd (unset ps k)).
Proof.
  induction ps as [|[i w] ps IH]; cbn [store unset]; auto. destruct (i =? k); cbn [map snd]; auto.
  rewrite occ_cons, IH, !occ_cons. lia.
Qed.
Lemma with_store k v ps : NoDup (map fst ps) -> with_property k v ps (store ps k v).
Proof. intro N. split; [|apply nodup_store; auto]. intro j. rewrite !lookup_find. apply find_store. Qed.
Lemma without_unset k ps : NoDup (map fst ps) -> without_property k ps (unset ps k).
Proof. intro N. split; [|apply nodup_unset; auto]. intro j. rewrite !lookup_find. apply find_unset. auto. Qed.
Lemma store_same ps k v : find ps k = Some v -> store ps k v = ps.
Proof.
  induction ps as [|[i w] ps IH]; cbn; [discriminate|]. destruct (i =? k) eqn:E.
  - intros [= ->]. apply Z.eqb_eq in E. congruence.
  - intro F. f_equal. auto.
Qed.

(** ** What stays *)
Lemma reachable_not_unheld s a : reachable s a -> ~ unheld s a.
Proof.
  intro A. induction A as [a [O|O]|b a A IH F]; intro U; inversion U; subst; auto.
Qed.
Lemma swept_refers s s' b a : swept s s' -> ~ unheld s b -> refers s b a -> refers s' b a.
Proof. intros (_ & _ & _ & W) N (x & H & I). exists x. split; auto. rewrite (proj2 (W b)); auto. Qed.
Lemma swept_reachable s s' a : swept s s' -> reachable s a -> reachable s' a.
Proof.
  intros W A. induction A as [a O|b a A IH F].
  - apply reach_own. destruct W as (_ & H & Fr & _). unfold owns in *. rewrite H, Fr. auto.
  - apply reach_ref with b; auto. eapply swept_refers; eauto. apply reachable_not_unheld; auto.
Qed.
Lemma unheld_hold b s x : ~ unheld s b -> (unheld (settle b (hold b s)) x <-> unheld s x).
Proof.
  intro N. split; intro U.
  - induction U as [x H F _ IH]. constructor; cbn in *; auto.
    intro Q. destruct (Nat.eq_dec x b) as [->|X]; [tauto|]. apply F. apply filter_In. split; auto.
    apply Nat.eqb_neq in X. rewrite X. reflexivity.
  - assert (x <> b) as X by (intros ->; tauto). revert X. induction U as [x H F P IH]. intro X. constructor.
    + cbn. intros [Q|Q]; auto.
    + cbn. intro Q. apply filter_In in Q. tauto.
    + intros b0 E. apply IH; auto. intros ->. apply N, P. exact E.
Qed.
Lemma swept_hold b s s' : swept s s' -> ~ unheld s b -> swept (settle b (hold b s)) (settle b (hold b s')).
Proof.
  intros (L & H & F & W) N. unfold swept. cbn [cells held fresh settle hold]. rewrite L, H, F.
  split; auto. split; auto. split; auto. intro a. change (at_ (settle b (hold b s)) a) with (at_ s a).
  change (at_ (settle b (hold b s')) a) with (at_ s' a). destruct (W a) as [W1 W2]. pose proof (unheld_hold b s a N). tauto.
Qed.
Lemma held_not_fresh h s a : Rep h s -> In a (held s) -> ~ In a (fresh s).
Proof.
  intros R I F. destruct (r_fresh _ _ R a F) as (d & Gd). apply (r_cnt _ _ R a d Gd) in F.
  pose proof (r_inv _ _ R a) as Q. rewrite Gd in Q. destruct Q as [Q _]. specialize (Q ltac:(lia)). apply occ_in in I. lia.
Qed.

Section Ops.
Variable max : nat.
Notation done := (done max).

Lemma insert_done h s o k v : Rep h s -> allowed (Insert o k v) s -> done (Insert o k v) h s.
Proof.
  intros R (IO & Ko & Kv & Ro). destruct (rep_object_of h s o R IO) as (ps & es & pr & w & m & O & G & C & K).
  set (b2 := BObject (store ps k v) es pr w).
  assert (effect max (Insert o k v) s ANone (settle v (assign o b2 s))) as EF.
  { cbn. split; auto. exists ps, es, pr, w, (store ps k v). split; auto. split; auto. apply with_store; auto. }
  assert (keys_ok b2) as K2 by (cbn; apply nodup_store; auto).
  destruct (find ps k) as [x|] eqn:X.
  - destruct (Nat.eqb x v) eqn:XV.
    + apply Nat.eqb_eq in XV. subst x. eapply done_exact; [|exact EF|].
      * cbn [perform]. unfold insert. rewrite G, X, Nat.eqb_refl. reflexivity.
      * unfold b2. rewrite store_same by auto. pose proof (assign_same h s o _ R G) as AS. cbn [bd] in AS. rewrite AS.
        rewrite fresh_settle_id; auto. eapply not_fresh; [exact R|exact G|]. cbn [bd]. apply occ_in. rewrite occ_refs_obj.
        rewrite (occ_find v ps k v X), occ_cons. destruct (Nat.eq_dec v v); [lia|congruence].
    + destruct (object_core h s o _ (BObject (unset ps k) es pr w) b2 x v R G) as (h' & s' & E & SW & R'); auto.
      * intro y. cbn [bd]. rewrite occ_cons, !occ_refs_obj, (occ_find y ps k x X), occ_cons. lia.
      * intro y. unfold b2. rewrite occ_cons, !occ_refs_obj, occ_store, occ_cons. lia.
      * exists h', ANone, (settle v (assign o b2 s)), s'. split; [|auto].
        cbn [perform]. unfold insert. rewrite G, X, XV. fold b2. rewrite E. reflexivity.
  - destruct (write_rep h s o _ b2 (Some v) (held s) R G) as (h' & E & R').
    + intro y. cbn [bd]. unfold b2. rewrite !occ_refs_obj, occ_store, (unset_absent ps k X). cbn [opt_list]. rewrite !occ_cons.
      cbn. lia.
    + intros x [= <-]. split; auto. eapply kept_or_fresh_reachable; eauto.
    + exact K2.
    + reflexivity.
    + eapply done_exact; [|exact EF|exact R'].
      cbn [perform]. unfold insert. rewrite G, X. fold b2. cbn [incr_opt] in E. rewrite E. reflexivity.
Qed.
Lemma delete_done h s o k : Rep h s -> allowed (Delete o k) s -> done (Delete o k) h s.
Proof.
  intros R (IO & Ko). destruct (rep_object_of h s o R IO) as (ps & es & pr & w & m & O & G & C & K).
  set (b2 := BObject (unset ps k) es pr w).
  assert (effect max (Delete o k) s ANone (assign o b2 s)) as EF.
  { cbn. split; auto. exists ps, es, pr, w, (unset ps k). split; auto. split; auto. apply without_unset; auto. }
  destruct (find ps k) as [x|] eqn:X.
  - destruct (write_rep h s o _ b2 None (x :: held s) R G) as (h1 & E & R1).
    + intro y. cbn [bd]. unfold b2. rewrite !occ_refs_obj, (occ_find y ps k x X), !occ_cons. cbn. lia.
    + discriminate.
    + cbn. apply nodup_unset; auto.
    + reflexivity.
    + rewrite (write_ok _ _ _ _ G) in E. cbn [bind incr_opt] in E. injection E as <-. cbn [settle_opt] in R1.
      destruct (decr_finish _ x (assign o b2 s) R1) as (h' & s' & E & P & SW & R').
      exists h', ANone, (assign o b2 s), s'. split; [|auto].
      cbn [perform]. unfold delete. rewrite G, X. fold b2. rewrite (write_ok _ _ _ _ G). cbn [bind]. rewrite E. cbn [bind].
      assert (alive h' o) as (co & Go & _).
      { eapply surv_kept; [exact R| | |exact P|exact Ko].
        - apply set_body_others.
        - apply set_body_counts. }
      assert (live h' o = true) as -> by (apply live_get; eauto). reflexivity.
  - eapply done_exact; [|exact EF|].
    + cbn [perform]. unfold delete. rewrite G, X. reflexivity.
    + unfold b2. rewrite unset_absent by auto. pose proof (assign_same h s o _ R G) as AS. cbn [bd] in AS. rewrite AS. auto.
Qed.
Lemma set_proto_done h s o p : Rep h s -> allowed (SetProto o p) s -> done (SetProto o p) h s.
Proof.
  intros R (IO & Ao & Ap & Ro & W). destruct (rep_object_of h s o R IO) as (ps & es & pr & w & m & O & G & C & K).
  pose proof (W ps es pr w O). subst w.
  destruct (write_rep h s o _ (BObject ps es (Some p) true) (Some p) (held s) R G) as (h' & E & R').
  - intro y. cbn [bd]. rewrite !occ_refs_obj. cbn. lia.
  - intros x [= <-]. auto.
  - exact K.
  - reflexivity.
  - eapply done_exact; [| |exact R'].
    + cbn [perform]. unfold set_proto. rewrite G. cbn [incr_opt] in E. rewrite E. reflexivity.
    + cbn. split; auto. exists ps, es, pr, false. auto.
Qed.
Lemma set_prototype_of_done h s v a : Rep h s -> allowed (SetPrototypeOf v a) s -> done (SetPrototypeOf v a) h s.
Proof.
  intros R (Av & Aa & NF & ov & oa & Vv & Va & Ro & IO & ps & es & pr & O).
  destruct (rep_value h s v _ R Vv) as (nv & Gv & _). destruct (rep_value h s a _ R Va) as (na & Ga & _).
  destruct (rep_object h s ov ps es pr false R O) as (n & G & C & K).
  destruct (rep_object_of h s oa R IO) as (aps & aes & apr & aw & m & AO & AG & AC & AK).
  destruct (negb (match aps with [] => true | _ => false end) && negb (Nat.eqb oa ov)) eqn:B.
  - apply andb_prop in B. destruct B as [B1 B2].
    assert (aps <> []) as B1' by (destruct aps; cbn in B1; congruence).
    assert (oa <> ov) as B2' by (apply Nat.eqb_neq; destruct (Nat.eqb oa ov); cbn in B2; congruence).
    destruct (dup_rep h s a (PObject oa) R Aa NF Va) as (h1 & E1 & R1).
    { intros x [X|[]]. subst. auto. }
    pose proof (get_lt _ _ _ G) as Lo. rewrite <- (length_bodies h s) in Lo by apply R.
    destruct (rep_object h1 (hold (next s) (add (BValue (PObject oa)) s)) ov ps es pr false R1) as (n1 & G1 & C1 & _).
    { unfold object. change (at_ (hold (next s) (add (BValue (PObject oa)) s)) ov) with (at_ (add (BValue (PObject oa)) s) ov).
      rewrite at_add. unfold next. destruct (Nat.eqb ov (length (cells s))) eqn:X; auto. apply Nat.eqb_eq in X. lia. }
    destruct (write_rep h1 _ ov _ (BObject ps es (Some (next s)) true) None (held s) R1 G1) as (h2 & E2 & R2).
    + intro y. cbn [bd held hold]. rewrite !occ_refs_obj. cbn [opt_list]. rewrite !occ_cons. cbn. lia.
    + discriminate.
    + exact K.
    + reflexivity.
    + rewrite (write_ok _ _ _ _ G1) in E2. cbn [bind incr_opt] in E2. injection E2 as <-. cbn [settle_opt] in R2.
      eapply done_exact; [| |exact R2].
      * cbn [perform]. unfold set_prototype_of. rewrite Gv, Ga, G, AG, B1, B2. cbn [andb]. rewrite E1. cbn [bind fst snd].
        rewrite (write_ok _ _ _ _ G1). reflexivity.
      * cbn [effect]. split; auto. exists ov, oa, ps, es, pr, false, aps, aes, apr, aw. repeat (split; [assumption|]). left. auto.
  - assert (aps = [] \/ oa = ov) as B'.
    { destruct aps; auto. cbn in B. right. apply Nat.eqb_eq. destruct (Nat.eqb oa ov); auto. }
    destruct (write_rep h s ov _ (BObject ps es apr false) None (held s) R G) as (h2 & E2 & R2).
    + intro y. cbn [bd]. rewrite !occ_refs_obj. cbn. lia.
    + discriminate.
    + exact K.
    + reflexivity.
    + rewrite (write_ok _ _ _ _ G) in E2. cbn [bind incr_opt] in E2. injection E2 as <-. cbn [settle_opt] in R2.
      eapply done_exact; [| |exact R2].
      * cbn [perform]. unfold set_prototype_of. rewrite Gv, Ga, G, AG, B. rewrite (write_ok _ _ _ _ G). reflexivity.
      * cbn [effect]. split; auto. exists ov, oa, ps, es, pr, false, aps, aes, apr, aw. repeat (split; [assumption|]). right. auto.
Qed.
Lemma replace_done h s a b : Rep h s -> allowed (Replace a b) s -> done (Replace a b) h s.
Proof.
  intros R (Ha & Kb & Ro). pose proof (release_rep h s a R Ha) as RR.
  destruct (Nat.eqb a b) eqn:AB.
  - apply Nat.eqb_eq in AB. subst b. eapply done_exact; [|cbn; split; reflexivity|].
    + cbn [perform]. unfold value_replace. rewrite Nat.eqb_refl. reflexivity.
    + rewrite fresh_settle_id; auto. change (~ In a (fresh s)). eapply held_not_fresh; eauto.
  - pose proof AB as N. apply Nat.eqb_neq in N. destruct Kb as [Kb|Kb]; [congruence|].
    apply kept_or_fresh_reachable in Kb.
    destruct (decr_finish h a (release a s) RR) as (h1 & s1 & E & P & SW & R1).
    pose proof (swept_reachable _ _ b SW Kb) as A1. destruct (rep_live h1 s1 b R1 A1) as (c1 & G1).
    destruct (p_body _ _ _ P b c1 G1) as (c0 & G0 & _ & _ & LE).
    assert (room s1 b) as Ro1.
    { unfold room in *. rewrite (rep_holders _ _ _ _ R1 G1). rewrite (rep_holders _ _ _ _ R G0) in Ro. lia. }
    destruct (hold_rep h1 s1 b R1 A1 Ro1) as (h2 & E2 & R2).
    exists h2, ANone, (settle b (hold b (release a s))), (settle b (hold b s1)). split; [|split; [|split; auto]].
    + cbn [perform]. unfold value_replace. rewrite AB, E. cbn [bind]. unfold plainly. rewrite E2. reflexivity.
    + cbn. auto.
    + apply swept_hold; auto. apply reachable_not_unheld; auto.
Qed.

(** ** Every call, every history *)
Lemma every_call c h s : Rep h s -> allowed c s -> done c h s.
Proof.
  intros R A. destruct c.
  - apply value_new_done; auto.
  - apply value_new1_done; auto.
  - apply obj_new_done; auto.
  - apply incr_done; auto.
  - apply decr_done; auto.
  - apply make_plain_done; auto.
  - apply make_object_done; auto.
  - apply make_variable_done; auto.
  - apply copy_done; auto.
  - apply move_done; auto.
  - apply dup_done; auto.
  - apply array_add_done; auto.
  - apply array_set_done; auto.
  - apply insert_done; auto.
  - apply delete_done; auto.
  - apply set_proto_done; auto.
  - apply set_prototype_of_done; auto.
  - apply replace_done; auto.
  - apply shared_done; auto.
Qed.
Lemma every_history cs : forall h s, Rep h s -> keeps_rules max cs s ->
  exists h' rs s', run max cs h = Ok (h', rs) /\ steps max cs s rs s' /\ Rep h' s'.
Proof.
  induction cs as [|c cs IH]; intros h s R K.
  - exists h, [], s. cbn. auto.
  - destruct K as [A K]. destruct (every_call c h s R A) as (h1 & r & s1 & s2 & P & E & SW & R1).
    destruct (IH h1 s2 R1) as (h' & rs & s' & P2 & S2 & R2); [apply (K r s2); exists s1; auto|].
    exists h', (r :: rs), s'. split; [|split; auto].
    + cbn [run]. rewrite P. cbn [bind fst snd]. rewrite P2. reflexivity.
    + cbn. exists s2. split; auto. exists s1. auto.
Qed.
End Ops.

Lemma rep_start : Rep [] start.
Proof.
  split.
  - reflexivity.
  - intro a. unfold get. rewrite (proj2 (nth_error_None (A := option cell) [] a)) by (cbn; lia). reflexivity.
  - intros a c G. apply get_lt in G. cbn in G. lia.
  - intros a [].
  - intros a c ps es pr w G. apply get_lt in G. cbn in G. lia.
  - intros a c G. apply get_lt in G. cbn in G. lia.
Qed.
