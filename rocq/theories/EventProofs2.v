(** The invariant of the event loop is preserved. *)
From Coq Require Import ZArith List Bool Lia Permutation.
Import ListNotations.
From Verif Require Import TreeModel TreeSpec HashModel HashSpec HashProofs HashProps Bits LimitModel EventModel EventSpec EventProofs.
Local Open Scope Z_scope.

Definition obs_ok (o : obs) (l : list obs) : Prop :=
  match o with
  | OSet id _ _ _ => Forall (fun k => k < id) (ids l)
  | ONew id => Forall (fun k => k < id) (ids l)
  | OClear id => In id (ids l)
  | OPass n t => forall n' t', In (OPass n' t') l -> n' < n
  | ORun id n t =>
      (forall b ms once, waiting id l = Some (b, ms, once) ->
         b + Z.max 0 ms <= t \/ (b + Z.max 0 ms) mod 1000 = 0 \/ 0 <= b + Z.max 0 ms < 1000) /\
      ~ In (OClear id) l /\
      (forall b ms, waiting id l = Some (b, ms, true) -> ~ ran id l) /\
      (exists l1 l2, l = l1 ++ OPass n t :: l2 /\ In id (ids l2))
  | OTimeUp start mt t => mt <= t - start \/ (sec start <> sec t /\ mt - 1000 <= t - start)
  end.
Fixpoint log_ok (l : list obs) : Prop :=
  match l with [] => True | o :: r => obs_ok o r /\ log_ok r end.

Lemma log_ok_split : forall l1 o l2, log_ok (l1 ++ o :: l2) -> obs_ok o l2.
Proof. induction l1 as [|x l1 IH]; simpl; intros o l2 [H1 H2]; auto. Qed.

Definition entry_ok (l : list obs) (e : eentry) : Prop :=
  exists ev, hdata e = Some ev /\ In (hkey e) (ids l) /\ ~ In (OClear (hkey e)) l /\
  match waiting (hkey e) l with
  | Some (b, ms, once) =>
      ekind ev = KTimer /\ eonce ev = once /\ einitial ev = Z.max 0 ms /\
      (ebusy ev = false -> (ewsec ev, ewms ev) = due_at b (einitial ev)) /\
      (once = true -> ebusy ev = false -> ~ ran (hkey e) l)
  | None => eonce ev = false
  end.

Record Inv (s : st) : Prop := {
  v_tbl : hinv (tbl s);
  v_idx : evIdx s = Z.of_nat (length (ids (log s)));
  v_ids : Forall (fun k => 1 <= k <= evIdx s) (ids (log s));
  v_ent : Forall (entry_ok (log s)) (Ents s);
  v_log : log_ok (log s);
  v_pass : forall n t, In (OPass n t) (log s) -> n < passes s;
  v_run : forall id n t, In (ORun id n t) (log s) -> In id (ids (log s));
  v_clr : forall id, In (OClear id) (log s) -> In id (ids (log s));
  v_pend : forall id, pending id (log s) -> In id (map hkey (Ents s))
}.

(** What happens to the entries between two states. *)
Definition kept (s s' : st) (e e' : eentry) : Prop :=
  hptr e' = hptr e /\ hkey e' = hkey e /\ hval e' = hval e /\
  exists ev ev', hdata e = Some ev /\ hdata e' = Some ev' /\ ebusy ev' = ebusy ev /\
    (ebusy ev = true -> waiting (hkey e) (log s') = waiting (hkey e) (log s)).
Definition idle (e : eentry) : Prop := forall ev, hdata e = Some ev -> ebusy ev = false.
Record R (s s' : st) : Prop := {
  r_log : exists l, log s' = l ++ log s /\ Forall (fun k => evIdx s < k) (ids l);
  r_idx : evIdx s <= evIdx s';
  r_ptr : (nextp (tbl s) <= nextp (tbl s'))%nat;
  r_ent : forall e', In e' (Ents s') ->
    ((nextp (tbl s) <= hptr e')%nat /\ evIdx s < hkey e' /\ idle e') \/ exists e, In e (Ents s) /\ kept s s' e e'
}.

Lemma kept_refl : forall s s' e, entry_ok (log s) e -> log s' = log s -> kept s s' e e.
Proof.
  intros s s' e (ev & H & _) E. repeat split; auto. exists ev, ev. repeat split; auto. intros _. now rewrite E.
Qed.
Lemma R_refl : forall s, Inv s -> R s s.
Proof.
  intros s I. constructor; try lia.
  - exists []. split; [auto|constructor].
  - intros e He. right. exists e. split; auto. apply kept_refl; auto.
    pose proof (v_ent _ I) as F. rewrite Forall_forall in F; auto.
Qed.
Lemma R_trans : forall a b c, R a b -> R b c -> R a c.
Proof.
  intros a b c [(l1 & A1 & A2) A3 A4 A5] [(l2 & B1 & B2) B3 B4 B5]. constructor; try lia.
  - exists (l2 ++ l1). rewrite B1, A1, app_assoc, ids_app. split; auto. apply Forall_app. split; auto.
    eapply Forall_impl; [|exact B2]. simpl; intros; lia.
  - intros e' He'. destruct (B5 e' He') as [(X & Y & Z0)|(e & He & K1 & K2 & K3 & ev & ev' & K4 & K5 & K6 & K7)].
    + left. split; [lia|split; [lia|auto]].
    + destruct (A5 e He) as [(X & Y & Z0)|(e0 & He0 & J1 & J2 & J3 & ev0 & ev1 & J4 & J5 & J6 & J7)].
      * left. rewrite K1, K2. split; auto. split; auto. intros ev2 H. rewrite K5 in H. injection H as <-.
        rewrite K6. auto.
      * right. exists e0. split; auto. split; [congruence|]. split; [congruence|]. split; [congruence|].
        exists ev0, ev'. assert (ev1 = ev) by congruence. subst ev1.
        split; [auto|]. split; [auto|]. split; [congruence|].
        intros Hb. rewrite <- J7 by auto. rewrite <- J2. apply K7. congruence.
Qed.

(** ** Logs and keys *)
Definition about (o : obs) : option Z :=
  match o with
  | OSet id _ _ _ | ONew id | OClear id | ORun id _ _ => Some id
  | _ => None
  end.
Lemma waiting_other : forall o l k, about o <> Some k -> waiting k (o :: l) = waiting k l.
Proof.
  intros [id ms on t|id|id|n t|id n t|a b c] l k H; simpl in *; auto;
    destruct (id =? k) eqn:E; auto; apply Z.eqb_eq in E; subst; congruence.
Qed.
Lemma ran_other : forall o l k, about o <> Some k -> (ran k (o :: l) <-> ran k l).
Proof.
  intros o l k H. unfold ran. split.
  - intros (n & t & [->|J]); [simpl in H; congruence|]. eauto.
  - intros (n & t & J). exists n, t. right; auto.
Qed.
Lemma in_ids_cons : forall o l k, In k (ids l) -> In k (ids (o :: l)).
Proof. intros [] l k H; simpl; auto. Qed.
Lemma clear_other : forall o l k, about o <> Some k -> (In (OClear k) (o :: l) <-> In (OClear k) l).
Proof. intros o l k H. simpl. split; [intros [->|J]; [simpl in H; congruence|auto]|auto]. Qed.
Lemma entry_ok_other : forall o l e, about o <> Some (hkey e) -> entry_ok l e -> entry_ok (o :: l) e.
Proof.
  intros o l e H (ev & A & B & C & D). exists ev. split; auto. split; [now apply in_ids_cons|].
  split; [now rewrite clear_other|]. rewrite waiting_other by auto.
  destruct (waiting (hkey e) l) as [[[b ms] once]|]; auto.
  rewrite ran_other by auto. auto.
Qed.
Lemma pending_other : forall o l k, about o <> Some k -> (pending k (o :: l) <-> pending k l).
Proof.
  intros o l k H. unfold pending. setoid_rewrite clear_other; auto. setoid_rewrite ran_other; auto.
  setoid_rewrite waiting_other; auto. reflexivity.
Qed.
Lemma waiting_in : forall k l x, waiting k l = Some x -> In k (ids l).
Proof.
  induction l as [|o l IH]; simpl; intros x H; [discriminate|].
  destruct o as [id ms on t|id|id|n t|id n t|a b c]; simpl; eauto.
  - destruct (id =? k) eqn:E; [apply Z.eqb_eq in E; auto|right; eauto].
  - destruct (id =? k); eauto. destruct (waiting k l) as [[[b ms] once]|] eqn:E; eauto.
Qed.

(** ** Changing the event of an entry *)
Lemma ents_set_event : forall p ev s, Ents (set_event p ev s) = map (setv p (Some ev)) (Ents s).
Proof. intros. unfold set_event. simpl. apply ents_value_set. Qed.
Lemma hkeys_set_event : forall p ev s, map hkey (Ents (set_event p ev s)) = map hkey (Ents s).
Proof. intros. rewrite ents_set_event, map_map. apply map_ext. intros; apply setv_key. Qed.
Lemma setv_hit : forall (e : eentry) v, setv (hptr e) v e = mkH (hptr e) (hkey e) (hval e) v.
Proof. intros. unfold setv. now rewrite Nat.eqb_refl. Qed.
Lemma setv_miss : forall (e x : eentry) v, hptr x <> hptr e -> setv (hptr e) v x = x.
Proof. intros e x v H. unfold setv. destruct (Nat.eqb (hptr x) (hptr e)) eqn:E; auto. apply Nat.eqb_eq in E; tauto. Qed.
Lemma in_set_event : forall s e ev x, hinv (tbl s) -> In e (Ents s) ->
  In x (Ents (set_event (hptr e) ev s)) ->
  x = mkH (hptr e) (hkey e) (hval e) (Some ev) \/ (In x (Ents s) /\ hptr x <> hptr e /\ hkey x <> hkey e).
Proof.
  intros s e ev x I He Hx. rewrite ents_set_event in Hx. apply in_map_iff in Hx. destruct Hx as (y & <- & Hy).
  destruct (Nat.eq_dec (hptr y) (hptr e)) as [E|E].
  - assert (y = e) by (eapply NoDup_map_inj with (f := hptr); [apply (iv_ptrs _ _ _ I)|auto|auto|auto]). subst y.
    left. apply setv_hit.
  - right. rewrite setv_miss by auto. split; auto. split; auto. intros K. apply E.
    f_equal. eapply NoDup_map_inj with (f := hkey); [apply (iv_keys _ _ _ I)|auto|auto|auto].
Qed.
Lemma set_event_in : forall s e ev, In e (Ents s) ->
  In (mkH (hptr e) (hkey e) (hval e) (Some ev)) (Ents (set_event (hptr e) ev s)).
Proof. intros s e ev H. rewrite ents_set_event. rewrite <- setv_hit. now apply in_map. Qed.

(** Inv is about tbl, evIdx, passes and log only. *)
Lemma Inv_ext : forall s s', tbl s' = tbl s -> evIdx s' = evIdx s -> passes s' = passes s -> log s' = log s ->
  Inv s -> Inv s'.
Proof.
  intros s s' A B C D [I1 I2 I3 I4 I5 I6 I7 I8 I9]. constructor; rewrite ?A, ?B, ?C, ?D; auto.
Qed.
Lemma R_ext : forall s s', tbl s' = tbl s -> evIdx s' = evIdx s -> log s' = log s -> Inv s -> R s s'.
Proof.
  intros s s' A B D I. constructor; rewrite ?A, ?B, ?D; try lia.
  - exists []. split; [auto|constructor].
  - intros e He. right. exists e. split; auto. apply kept_refl; auto.
    pose proof (v_ent _ I) as F. rewrite Forall_forall in F; auto.
Qed.

Lemma Inv_set_event : forall s e ev, Inv s -> In e (Ents s) ->
  entry_ok (log s) (mkH (hptr e) (hkey e) (hval e) (Some ev)) ->
  Inv (set_event (hptr e) ev s).
Proof.
  intros s e ev [I1 I2 I3 I4 I5 I6 I7 I8 I9] He Hok. constructor; auto.
  - simpl. now apply inv_value_set.
  - rewrite Forall_forall in *. intros x Hx. apply in_set_event in Hx; auto.
    destruct Hx as [->|(Hx & _)]; [exact Hok|]. apply I4; auto.
  - rewrite hkeys_set_event. exact I9.
Qed.

(** Logging something that concerns no event. *)
Lemma Inv_logging : forall s o, Inv s -> about o = None -> obs_ok o (log s) ->
  (forall n t, o = OPass n t -> n < passes s) ->
  Inv (logging o s).
Proof.
  intros s o [I1 I2 I3 I4 I5 I6 I7 I8 I9] HA HO HP.
  assert (EI : ids (o :: log s) = ids (log s)) by (destruct o; simpl in *; try discriminate; auto).
  constructor; cbn [logging tbl evIdx log passes]; auto; rewrite ?EI; auto.
  - eapply Forall_impl; [|exact I4]. intros e He. apply entry_ok_other; auto. rewrite HA; discriminate.
  - split; auto.
  - intros n t [->|J]; eauto.
  - intros id n t [->|J]; [discriminate|eauto].
  - intros id [->|J]; [discriminate|eauto].
  - intros id H. rewrite pending_other in H by (rewrite HA; discriminate). auto.
Qed.
Lemma R_logging : forall s o, Inv s -> about o = None -> R s (logging o s).
Proof.
  intros s o I HA. constructor; cbn [logging tbl evIdx log passes]; try lia.
  - exists [o]. split; auto. destruct o; simpl in *; try discriminate; auto.
  - intros e He. right. exists e. split; auto. pose proof (v_ent _ I) as F. rewrite Forall_forall in F.
    destruct (F e He) as (ev & H & _). repeat split; auto. exists ev, ev. repeat split; auto.
    intros _. change (log (logging o s)) with (o :: log s). rewrite waiting_other; auto. rewrite HA; discriminate.
Qed.
