(** Theorems about timers and the event loop (C29, C30). *)
From Coq Require Import ZArith List Bool Lia Permutation.
Import ListNotations.
From Verif Require Import TreeModel TreeSpec HashModel HashSpec HashProofs HashProps Bits LimitModel EventModel EventSpec
  EventProofs EventProofs2 EventProofs3 EventProofs4 EventProofs5 EventProofs6 EventProofs7.
Local Open Scope Z_scope.

(** [s] is what the actions [h] lead to, from a fresh interpreter at time [t0], when the
    successive callbacks perform the lists of actions [sc]; fewer than 2^31 events were made. *)
Definition history (t0 : Z) (sc : list (list action)) (h : list action) (s : st) : Prop :=
  (exists fuel, run_acts fuel h (st0 t0 sc) = Ok s) /\ Z.of_nat (length (ids (log s))) < 2 ^ 31.

Lemma history_inv : forall t0 sc h s, history t0 sc h s -> Inv s /\ R (st0 t0 sc) s.
Proof.
  intros t0 sc h s ((f & H) & HF). destruct (all_ok f) as (_ & A & _). apply (A _ _ _ H); auto. apply Inv_0.
Qed.

(** ** C29 *)

(** A callback is called at least [ms] milliseconds after its wait began (its creation, or the
    pass of its previous call) -- except that a timer falling due at a whole second, or within
    one second of the epoch, runs in any pass. *)
Theorem timer_not_early : forall t0 sc h s, history t0 sc h s ->
  forall l1 id n t l2, log s = l1 ++ ORun id n t :: l2 ->
  forall began ms once, waiting id l2 = Some (began, ms, once) ->
    began + Z.max 0 ms <= t \/ (began + Z.max 0 ms) mod 1000 = 0 \/ 0 <= began + Z.max 0 ms < 1000.
Proof.
  intros t0 sc h s H l1 id n t l2 E began ms once W. apply history_inv in H. destruct H as [I _].
  pose proof (v_log _ I) as L. rewrite E in L. apply log_ok_split in L. cbn [obs_ok] in L. destruct L as (L & _). eauto.
Qed.

Lemma waiting_of_set : forall l id ms once t, log_ok l -> In (OSet id ms once t) l ->
  exists b, waiting id l = Some (b, ms, once).
Proof.
  induction l as [|o l IH]; intros id ms once t HL H; [destruct H|]. destruct HL as [O1 O2]. destruct H as [->|H].
  - cbn [waiting]. rewrite Z.eqb_refl. eauto.
  - destruct (IH id ms once t O2 H) as (b & W). pose proof (waiting_in _ _ _ W) as WI.
    destruct o as [id' ms' on t'|id'|id'|n t'|id' n t'|a b' c]; cbn [waiting]; eauto.
    + cbn [obs_ok] in O1. rewrite Forall_forall in O1. apply O1 in WI.
      destruct (id' =? id) eqn:E; eauto. apply Z.eqb_eq in E. lia.
    + destruct (id' =? id); eauto. rewrite W. eauto.
Qed.
Lemma log_ok_tail : forall l1 l2, log_ok (l1 ++ l2) -> log_ok l2.
Proof. induction l1 as [|x l1 IH]; simpl; intros l2 H; auto. destruct H; auto. Qed.
Lemma set_in_ids : forall l id ms once t, In (OSet id ms once t) l -> In id (ids l).
Proof. induction l as [|o l IH]; simpl; intros id ms once t H; [tauto|]. destruct H as [->|H]; [left; auto|]. apply in_ids_cons. eauto. Qed.
Lemma ids_nodup : forall l, log_ok l -> NoDup (ids l).
Proof.
  induction l as [|o l IH]; cbn [log_ok]; intros H; [constructor|]. destruct H as [O1 O2].
  destruct o; cbn [ids]; auto; constructor; auto; intros J; cbn [obs_ok] in O1; rewrite Forall_forall in O1; apply O1 in J; lia.
Qed.

(** The callback of a setTimeout is called at most once. *)
Theorem timeout_runs_at_most_once : forall t0 sc h s, history t0 sc h s ->
  forall id ms t, In (OSet id ms true t) (log s) ->
  forall l1 n t' l2, log s = l1 ++ ORun id n t' :: l2 -> ~ ran id l2 /\ ~ ran id l1.
Proof.
  intros t0 sc h s H id ms t HS. apply history_inv in H. destruct H as [I _].
  assert (ONE : forall l1 n t' l2, log s = l1 ++ ORun id n t' :: l2 -> ~ ran id l2).
  { intros l1 n t' l2 E. pose proof (v_log _ I) as L. rewrite E in L. pose proof (log_ok_split _ _ _ L) as O.
    cbn [obs_ok] in O. destruct O as (_ & _ & O3 & l3 & l4 & O4 & O5).
    assert (O5' : In id (ids l2)) by (rewrite O4, ids_app; cbn [ids]; rewrite in_app_iff; auto).
    assert (HS2 : In (OSet id ms true t) l2).
    { rewrite E, in_app_iff in HS. destruct HS as [HS|[HS|HS]]; [|discriminate|auto]. exfalso.
      pose proof (ids_nodup _ L) as N. rewrite ids_app in N. cbn [ids] in N.
      apply set_in_ids in HS. revert N HS O5'. generalize (ids l1) (ids l2). intros a b N HA HB.
      induction a as [|y a IHa]; [destruct HA|]. cbn [app] in N. inversion N as [|z zs Z1 Z2]; subst.
      destruct HA as [->|HA]; [apply Z1; rewrite in_app_iff; auto|auto]. }
    assert (L2 : log_ok l2) by (apply (log_ok_tail (l1 ++ [ORun id n t'])); rewrite <- app_assoc; exact L).
    destruct (waiting_of_set _ _ _ _ _ L2 HS2) as (b & W). eauto. }
  intros l1 n t' l2 E. split; [eauto|]. intros (n2 & t2 & J). apply in_split in J. destruct J as (k1 & k2 & ->).
  rewrite <- app_assoc in E. cbn [app] in E. apply (ONE _ _ _ _ E). exists n, t'. rewrite in_app_iff. right. left. auto.
Qed.

(** In a pass whose callbacks leave the event table alone, every due pending timer runs exactly
    once, and no pending timer that is not due runs unless it falls due at a whole second (or
    near the epoch). *)
Theorem due_timers_run : forall t0 sc h s, history t0 sc h s -> Forall (Forall quiet) (script s) ->
  exists fuel0, forall fuel, (fuel0 <= fuel)%nat ->
  exists cnt s' new, process fuel (-1) s = Ok (cnt, s') /\ log s' = new ++ OPass (passes s) (now s) :: log s /\
    (forall id began ms once, pending id (log s) -> waiting id (log s) = Some (began, ms, once) ->
       began + Z.max 0 ms <= now s ->
       exists l1 l2, new = l1 ++ ORun id (passes s) (now s) :: l2 /\ ~ ran id l1 /\ ~ ran id l2) /\
    (forall id began ms once, waiting id (log s) = Some (began, ms, once) -> ran id new ->
       pending id (log s) /\
       (began + Z.max 0 ms <= now s \/ (began + Z.max 0 ms) mod 1000 = 0 \/ 0 <= began + Z.max 0 ms < 1000)).
Proof.
  intros t0 sc h s H HQ. pose proof (proj2 H) as HF. apply history_inv in H. destruct H as [I RR].
  set (L := list_sum (map (@length action) (script s))).
  assert (HL : Forall (fun a => Forall quiet a /\ (length a <= L)%nat) (script s)).
  { rewrite Forall_forall in *. intros a Ha. split; auto. unfold L. clear - Ha. induction (script s) as [|x l IH]; simpl in *; [tauto|].
    destruct Ha as [->|Ha]; [lia|]. specialize (IH Ha). unfold list_sum in *. lia. }
  set (s1 := mkSt (tbl s) (evIdx s) (hdlId s) (now s) (script s) (passes s + 1) (OPass (passes s) (now s) :: log s)).
  assert (A0 : hstate (tbl s1) hash_first_state []) by (split; auto).
  assert (TD : todo_list (tbl s1) hash_first_state [] = Ents s) by reflexivity.
  assert (ID : Forall idle (Ents s)).
  { rewrite Forall_forall. intros e He. destruct (r_ent _ _ RR e He) as [(_ & _ & X)|(e0 & [] & _)]. exact X. }
  exists (S (length (Ents s) + L + 2)). intros fuel HFu. destruct fuel as [|fuel]; [lia|].
  assert (IV1 : hinv (tbl s1)) by exact (v_tbl _ I).
  assert (ID1 : Forall idle (todo_list (tbl s1) hash_first_state [])) by (rewrite TD; exact ID).
  destruct (quiet_walk (length (Ents s)) L (now s) (wrap32 (evIdx s)) (passes s) hash_first_state [] s1 0 (-1) fuel)
    as (cnt & s' & W & LW); try rewrite TD; auto; try lia.
  rewrite TD in LW.
  assert (HIX : wrap32 (evIdx s) = evIdx s) by (apply wrap32_id; rewrite (v_idx _ I); lia).
  exists cnt, s', (rev (map (fun e => ORun (hkey e) (passes s) (now s)) (filter (due (now s) (wrap32 (evIdx s))) (Ents s)))).
  split; [cbn [process]; exact W|]. split; [exact LW|].
  pose proof (v_ent _ I) as FE. rewrite Forall_forall in FE, ID.
  assert (KEYS : forall e, In e (Ents s) -> negb (wrap32 (evIdx s) <? wrap32 (hkey e)) = true).
  { intros e He. pose proof (key_range s e I He). rewrite HIX, wrap32_id; [|rewrite (v_idx _ I) in *; lia].
    apply negb_true_iff. apply Z.ltb_ge. lia. }
  split.
  - intros id began ms once HP HW HD. pose proof (v_pend _ I id HP) as HI. apply in_map_iff in HI. destruct HI as (e & <- & He).
    destruct (FE e He) as (ev & D1 & D2 & D3 & D4). rewrite HW in D4. destruct D4 as (Q1 & Q2 & Q3 & Q4 & Q5).
    assert (DU : due (now s) (wrap32 (evIdx s)) e = true).
    { unfold due. rewrite D1, KEYS by auto. rewrite Q1. cbn [andb]. apply negb_true_iff.
      apply (due_when _ _ (began + Z.max 0 ms)); auto. rewrite Q4 by (apply (ID e He); auto). rewrite Q3. apply due_at_spec. lia. }
    assert (IN : In e (filter (due (now s) (wrap32 (evIdx s))) (Ents s))) by (apply filter_In; auto).
    assert (ND : NoDup (map hkey (filter (due (now s) (wrap32 (evIdx s))) (Ents s)))).
    { pose proof (iv_keys _ _ _ (v_tbl _ I)) as N. clear - N. induction (Ents s) as [|x l IHl]; cbn [filter map] in *; auto.
      inversion N; subst. destruct (due _ _ x); auto. cbn [map]. constructor; auto. intros J. apply H1.
      apply in_map_iff in J. destruct J as (y & J1 & J2). apply filter_In in J2. rewrite <- J1. apply in_map. tauto. }
    apply in_split in IN. destruct IN as (a & b & IN). rewrite IN in *. rewrite map_app in *. cbn [map] in *.
    exists (rev (map (fun e => ORun (hkey e) (passes s) (now s)) b)), (rev (map (fun e => ORun (hkey e) (passes s) (now s)) a)).
    split; [rewrite rev_app_distr; cbn [rev]; now rewrite <- app_assoc|].
    apply NoDup_remove_2 in ND. rewrite in_app_iff in ND.
    split; intros (n & t & J); apply in_rev in J; apply in_map_iff in J; destruct J as (y & J1 & J2);
      injection J1 as J1 _ _; apply ND; rewrite <- J1; [right|left]; now apply in_map.
  - intros id began ms once HW (n & t & J). apply in_rev in J. apply in_map_iff in J. destruct J as (e & J1 & J2).
    injection J1 as J1 _ _. subst id. apply filter_In in J2. destruct J2 as [He DU].
    destruct (FE e He) as (ev & D1 & D2 & D3 & D4). rewrite HW in D4. destruct D4 as (Q1 & Q2 & Q3 & Q4 & Q5).
    assert (HB : ebusy ev = false) by (apply (ID e He); auto). split.
    + exists began, ms, once. split; auto.
    + unfold due in DU. rewrite D1, Q1 in DU. apply andb_true_iff in DU. destruct DU as [_ DU]. apply negb_true_iff in DU.
      apply (due_not_early (now s) ev); auto. rewrite (Q4 HB), Q3. apply due_at_spec. lia.
Qed.

(** update(ms), when it returns because the time is up, has waited ms milliseconds if the clock
    is still in the second in which it started, and otherwise at least ms - 1000. *)
Theorem update_waits : forall t0 sc h s, history t0 sc h s ->
  forall start ms t, In (OTimeUp start ms t) (log s) ->
    ms <= t - start \/ (start / 1000 <> t / 1000 /\ ms - 1000 <= t - start).
Proof.
  intros t0 sc h s H start ms t HI. apply history_inv in H. destruct H as [I _].
  apply in_split in HI. destruct HI as (l1 & l2 & E). pose proof (v_log _ I) as L. rewrite E in L.
  apply log_ok_split in L. exact L.
Qed.

(** ** C30 *)

(** The ids handed out are all different (so a new one is not that of any earlier event, live or
    not). *)
Theorem event_ids_unique : forall t0 sc h s, history t0 sc h s -> NoDup (ids (log s)).
Proof. intros t0 sc h s H. apply history_inv in H. destruct H as [I _]. apply ids_nodup. apply (v_log _ I). Qed.

(** After clearInterval(id) the callback of id is not called. *)
Theorem cleared_timer_never_runs : forall t0 sc h s, history t0 sc h s ->
  forall l1 id l2, log s = l1 ++ OClear id :: l2 -> ~ ran id l1.
Proof.
  intros t0 sc h s H l1 id l2 E (n & t & J). apply history_inv in H. destruct H as [I _].
  apply in_split in J. destruct J as (k1 & k2 & ->). rewrite <- app_assoc in E. cbn [app] in E.
  pose proof (v_log _ I) as L. rewrite E in L. apply log_ok_split in L. cbn [obs_ok] in L. destruct L as (_ & L & _).
  apply L. rewrite in_app_iff. right. left. auto.
Qed.

(** A callback called in a pass belongs to an event created before that pass started. *)
Theorem events_wait_for_next_pass : forall t0 sc h s, history t0 sc h s ->
  forall l1 id n t l2, log s = l1 ++ ORun id n t :: l2 ->
  exists l3 l4, l2 = l3 ++ OPass n t :: l4 /\ In id (ids l4) /\
    (* and this is the start of the pass: no other has the same number *)
    (forall t', ~ In (OPass n t') l4) /\ (forall t', ~ In (OPass n t') (l1 ++ ORun id n t :: l3)).
Proof.
  intros t0 sc h s H l1 id n t l2 E. apply history_inv in H. destruct H as [I _].
  pose proof (v_log _ I) as L. rewrite E in L. pose proof (log_ok_split _ _ _ L) as O. cbn [obs_ok] in O.
  destruct O as (_ & _ & _ & l3 & l4 & O1 & O2). exists l3, l4. split; auto. split; auto.
  rewrite O1 in E. split.
  - intros t' J. rewrite O1 in L. change (l1 ++ ORun id n t :: l3 ++ OPass n t :: l4) with (l1 ++ (ORun id n t :: l3) ++ OPass n t :: l4) in L.
    rewrite app_assoc in L. apply log_ok_split in L. cbn [obs_ok] in L. apply L in J. lia.
  - intros t' J. apply in_split in J. destruct J as (a & b & J).
    rewrite O1 in L. change (l1 ++ ORun id n t :: l3 ++ OPass n t :: l4) with (l1 ++ (ORun id n t :: l3) ++ OPass n t :: l4) in L.
    rewrite app_assoc, J, <- app_assoc in L. cbn [app] in L. apply log_ok_split in L. cbn [obs_ok] in L.
    assert (n < n) by (eapply L; rewrite in_app_iff; right; left; eauto). lia.
Qed.

(** Number of events that a list of actions creates. *)
Fixpoint creations (l : list action) : nat :=
  match l with
  | [] => 0
  | (ASet _ _ | AHandler | ANew) :: r => S (creations r)
  | _ :: r => creations r
  end.
(** As long as callbacks do not clear timers or run passes themselves, nothing freed is used. *)
Theorem event_loop_memory_safe : forall t0 sc h fuel,
  Forall (Forall only_creates) sc ->
  Z.of_nat (creations h + list_sum (map creations sc)) < 805306368 ->
  run_acts fuel h (st0 t0 sc) <> Crash.
Proof.
  intros t0 sc h fuel HG HB.
  assert (CE : forall l, cost l = creations l).
  { induction l as [|a l IHl]; auto. change (cost (a :: l)) with (cost1 a + cost l)%nat. rewrite IHl. destruct a; reflexivity. }
  apply (run_safe fuel h (st0 t0 sc)); auto; [apply Inv_0|].
  unfold weight, made, total. rewrite CE. replace (map cost (script (st0 t0 sc))) with (map creations sc) by (apply map_ext; intros; symmetry; apply CE).
  unfold LIM. cbn [st0 log ids length]. lia.
Qed.

(** ** What does not hold *)

(** setTimeout(f, 5000) called on a whole second runs at once. *)
Theorem timer_early_refuted : exists s, history 100000 [] [ASet 5000 true; AUpdate 0 []] s /\
  log s = [ORun 1 0 100000; OPass 0 100000; OSet 1 5000 true 100000].
Proof. eexists. split; [split; [exists 10%nat; vm_compute; reflexivity|vm_compute; reflexivity]|vm_compute; reflexivity]. Qed.

(** A callback that clears its own timer: the event is used after it was freed. *)
Theorem clear_self_crashes_refuted :
  run_acts 10 [ASet 5 false; ATick 5; AUpdate 0 []] (st0 100100 [[AClear 1]]) = Crash.
Proof. vm_compute. reflexivity. Qed.

(** A callback that clears another timer can leave the loop with a freed entry. *)
Theorem clear_other_crashes_refuted :
  run_acts 20 [ASet 5 true; ASet 500 true; ASet 5 true; ASet 7 true; ASet 5 true; ATick 5; AUpdate 0 []]
    (st0 100100 [[AClear 1]]) = Crash.
Proof. vm_compute. reflexivity. Qed.

(** A callback that calls update() lets the nested pass free the event that the outer pass has
    fetched in advance. *)
Theorem nested_update_crashes_refuted :
  run_acts 20 [ASet 5 true; ASet 500 true; ASet 5 true; ASet 7 true; ASet 5 true; ATick 5; AUpdate 0 []]
    (st0 100100 [[AUpdate 0 []]]) = Crash.
Proof. vm_compute. reflexivity. Qed.

(** update(500) started just before a whole second returns after 2 milliseconds. *)
Theorem update_early_refuted : exists s, history 100999 [] [AUpdate 500 [2]] s /\
  In (OTimeUp 100999 500 101001) (log s).
Proof. eexists. split; [split; [exists 10%nat; vm_compute; reflexivity|vm_compute; reflexivity]|vm_compute; auto]. Qed.

(** A callback that creates events can make the table grow during the pass, and then a due timer
    can be skipped: here timer 74, pending and due for 5 ms, does not run in the pass. *)
Definition skip_ids : list Z := [4; 8; 39; 43; 74; 78; 109; 113; 117].
Definition skip_setup : list action :=
  flat_map (fun k => ASet 5 false :: if existsb (Z.eqb k) skip_ids then [] else [AClear k]) (map Z.of_nat (seq 1 120))
  ++ [ATick 10].
Definition runs_of (id : Z) (l : list obs) : bool :=
  existsb (fun o => match o with ORun i _ _ => i =? id | _ => false end) l.
Theorem due_timer_skipped_refuted : exists s s',
  history 100100 [repeat (ASet 5 true) 44] skip_setup s /\
  (exists fuel cnt, process fuel (-1) s = Ok (cnt, s')) /\
  waiting 74 (log s) = Some (100100, 5, false) /\ pending 74 (log s) /\ now s = 100110 /\ ~ ran 74 (log s').
Proof.
  assert (RO : forall id l, runs_of id l = false -> ~ ran id l).
  { intros id l H (n & t & J). assert (X : runs_of id l = true); [|congruence].
    apply existsb_exists. exists (ORun id n t). split; auto. apply Z.eqb_refl. }
  assert (NC : forall id l, existsb (fun o => match o with OClear i => i =? id | _ => false end) l = false -> ~ In (OClear id) l).
  { intros id l H J. assert (X : existsb (fun o => match o with OClear i => i =? id | _ => false end) l = true); [|congruence].
    apply existsb_exists. exists (OClear id). split; auto. apply Z.eqb_refl. }
  pose (r := run_acts 500 skip_setup (st0 100100 [repeat (ASet 5 true) 44])).
  pose (s := match r with Ok x => x | _ => st0 0 [] end).
  pose (r' := process 300 (-1) s). pose (s' := match r' with Ok (_, x) => x | _ => st0 0 [] end).
  exists s, s'. split; [|split; [|split; [|split; [|split]]]].
  - split; [exists 500%nat; vm_compute; reflexivity|vm_compute; reflexivity].
  - exists 300%nat. eexists. vm_compute. reflexivity.
  - vm_compute. reflexivity.
  - exists 100100, 5, false. split; [vm_compute; reflexivity|]. split; [|discriminate].
    apply NC. vm_compute. reflexivity.
  - vm_compute. reflexivity.
  - apply RO. vm_compute. reflexivity.
Qed.

(** ** The hypotheses are met *)
(** An interval, two timeouts (one cleared), a C event and a handler, over several passes. *)
Example history_example : exists s,
  history 100100 [[ATick 3; ASet 0 true]; []; []]
    [ASet 30 false; ASet 40 true; ANew; AHandler; AProcess (-1); AClear 2; ATick 31; AUpdate 50 [20; 20; 20; 20]] s /\
  Forall (Forall quiet) (script s) /\ (1 < length (filter (fun o => match o with ORun 1 _ _ => true | _ => false end) (log s)))%nat.
Proof.
  eexists. split; [split; [exists 40%nat; vm_compute; reflexivity|vm_compute; reflexivity]|].
  split; [vm_compute; constructor|apply Nat.ltb_lt; vm_compute; reflexivity].
Qed.
Example memory_safe_example : exists s,
  run_acts 40 [ASet 30 false; ASet 40 true; ANew; AClear 2; ATick 31; AUpdate 50 [20; 20; 20; 20]]
    (st0 100100 [[ATick 3; ASet 0 true]; []; [ANew]]) = Ok s.
Proof. eexists. vm_compute. reflexivity. Qed.

Print Assumptions timer_not_early.
Print Assumptions timeout_runs_at_most_once.
Print Assumptions due_timers_run.
Print Assumptions update_waits.
Print Assumptions event_ids_unique.
Print Assumptions cleared_timer_never_runs.
Print Assumptions events_wait_for_next_pass.
Print Assumptions event_loop_memory_safe.
Print Assumptions due_timer_skipped_refuted.
