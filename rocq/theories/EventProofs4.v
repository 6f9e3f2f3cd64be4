(** The event loop preserves its invariant. *)
From Coq Require Import ZArith List Bool Lia Permutation.
Import ListNotations.
From Verif Require Import TreeModel TreeSpec HashModel HashSpec HashProofs HashProps Bits LimitModel EventModel EventSpec EventProofs EventProofs2 EventProofs3.
Local Open Scope Z_scope.

Lemma value_set_twice : forall p v w (t : etable), value_set p v (value_set p w t) = value_set p v t.
Proof.
  intros p v w t. unfold value_set. cbn [buckets numBuckets hnumEntries rebuildSize downShift mask nextp]. f_equal.
  rewrite map_map. apply map_ext. intros b. rewrite map_map. apply map_ext. intros e.
  destruct (Nat.eqb (hptr e) p) eqn:E; cbn [hptr hkey hval]; rewrite E; reflexivity.
Qed.

Definition ctx (cur newIdx n : Z) (s : st) : Prop :=
  newIdx <= evIdx s /\
  exists l1 l2, log s = l1 ++ OPass n cur :: l2 /\ Forall (fun k => newIdx < k) (ids l1).
Lemma ctx_R : forall cur ni n s s', ctx cur ni n s -> R s s' -> ctx cur ni n s'.
Proof.
  intros cur ni n s s' (H0 & l1 & l2 & H1 & H2) [(l & A & B) C _ _]. split; [lia|].
  exists (l ++ l1), l2. rewrite A, H1, app_assoc, ids_app. split; auto. apply Forall_app; split; auto.
  eapply Forall_impl; [|exact B]. simpl; intros; lia.
Qed.

Lemma wrap32_id : forall k, 0 <= k < 2 ^ 31 -> wrap32 k = k.
Proof. intros k H. unfold wrap32. rewrite Z.mod_small by lia. lia. Qed.

(** The state in which the callback starts. *)
Lemma start_call : forall cur ni n s e ev ev1,
  Inv s -> ctx cur ni n s -> In e (Ents s) -> hdata e = Some ev -> hkey e <= ni ->
  (ekind ev = KTimer -> not_due cur ev = false) -> ebusy ev = false ->
  ekind ev1 = ekind ev -> eonce ev1 = eonce ev -> einitial ev1 = einitial ev -> ebusy ev1 = true ->
  forall s2, tbl s2 = value_set (hptr e) (Some ev1) (tbl s) -> evIdx s2 = evIdx s -> passes s2 = passes s ->
    log s2 = ORun (hkey e) n cur :: log s ->
  Inv s2 /\ In (mkH (hptr e) (hkey e) (hval e) (Some ev1)) (Ents s2) /\
  waiting (hkey e) (log s2) = match waiting (hkey e) (log s) with Some (_, ms, once) => Some (cur, ms, once) | None => None end.
Proof.
  intros cur ni n s e ev ev1 I (C0 & l1 & l2 & C1 & C2) He Hd Hk HD HB K1 K2 K3 K4 s2 T2 E2 P2 L2.
  destruct I as [I1 I2 I3 I4 I5 I6 I7 I8 I9]. rewrite Forall_forall in I4.
  destruct (I4 e He) as (ev' & D1 & D2 & D3 & D4). assert (ev' = ev) by congruence. subst ev'.
  assert (W : waiting (hkey e) (ORun (hkey e) n cur :: log s) =
     match waiting (hkey e) (log s) with Some (_, ms, once) => Some (cur, ms, once) | None => None end).
  { cbn [waiting]. now rewrite Z.eqb_refl. }
  assert (TE : tbl s2 = tbl (set_event (hptr e) ev1 s)) by (rewrite T2; reflexivity).
  assert (IN : In (mkH (hptr e) (hkey e) (hval e) (Some ev1)) (Ents s2)) by (rewrite TE; now apply set_event_in).
  split; [|split; [exact IN|rewrite L2; exact W]].
  constructor.
  - rewrite T2. now apply inv_value_set.
  - rewrite E2, L2. exact I2.
  - rewrite E2, L2. exact I3.
  - rewrite Forall_forall, L2. intros x Hx. rewrite TE in Hx. apply in_set_event in Hx; auto.
    destruct Hx as [->|(Hx & _ & N)].
    + exists ev1. cbn [hdata hkey]. split; auto. split; [apply in_ids_cons; auto|].
      split; [intros [J|J]; [discriminate|auto]|]. rewrite W.
      destruct (waiting (hkey e) (log s)) as [[[b ms] once]|].
      * destruct D4 as (Q1 & Q2 & Q3 & _). rewrite K1, K2, K3, K4. repeat split; auto; intros; discriminate.
      * congruence.
    + apply entry_ok_other; [simpl; congruence|auto].
  - rewrite L2. split; auto. cbn [obs_ok]. split; [|split; [auto|split]].
    + intros b ms once W1. rewrite W1 in D4. destruct D4 as (Q1 & Q2 & Q3 & Q4 & Q5).
      apply (due_not_early cur ev); auto. rewrite (Q4 HB), Q3. apply due_at_spec. lia.
    + intros b ms W1. rewrite W1 in D4. destruct D4 as (Q1 & Q2 & Q3 & Q4 & Q5). auto.
    + exists l1, l2. split; auto. rewrite C1, ids_app, in_app_iff in D2. destruct D2 as [D2|D2]; auto.
      rewrite Forall_forall in C2. apply C2 in D2. lia.
  - rewrite L2, P2. intros m t [J|J]; [discriminate|eauto].
  - rewrite L2. intros k m t [J|J]; [injection J as <- _ _; auto|cbn [ids]; eauto].
  - rewrite L2. intros k [J|J]; [discriminate|cbn [ids]; eauto].
  - rewrite L2. intros k HP. rewrite TE, hkeys_set_event. destruct (Z.eq_dec k (hkey e)) as [->|N].
    + now apply in_map.
    + rewrite pending_other in HP by (simpl; congruence). auto.
Qed.

Lemma at_ptr_some : forall p s e, at_ptr p s = Some e -> In e (Ents s) /\ hptr e = p.
Proof.
  intros p s e H. unfold at_ptr in H. apply find_some in H. destruct H as [A B]. apply Nat.eqb_eq in B. auto.
Qed.

(** What follows the callback. *)
Lemma after_ok : forall cur s e ev0 ms0 s2 s4 s5,
  Inv s -> In e (Ents s) -> hdata e = Some ev0 -> ebusy ev0 = false ->
  (* the state in which the callback started *)
  Inv s2 -> evIdx s2 = evIdx s -> nextp (tbl s2) = nextp (tbl s) ->
  (forall x, In x (Ents s2) -> (exists ev1, x = mkH (hptr e) (hkey e) (hval e) (Some ev1) /\ ebusy ev1 = true) \/
                               (In x (Ents s) /\ hptr x <> hptr e /\ hkey x <> hkey e)) ->
  (exists n, log s2 = ORun (hkey e) n cur :: log s) ->
  waiting (hkey e) (log s2) = match ms0 with Some (ms, once) => Some (cur, ms, once) | None => None end ->
  (* the callback *)
  Inv s4 -> R s2 s4 -> after_call cur (hptr e) s4 = Ok s5 ->
  Inv s5 /\ R s s5.
Proof.
  intros cur s e ev0 ms0 s2 s4 s5 I He Hd HB I2 EI NP CASE (nn & L2) W I4 HR HA.
  unfold after_call in HA. destruct (at_ptr (hptr e) s4) as [e4|] eqn:EP; [|discriminate].
  apply at_ptr_some in EP. destruct EP as [He4 HP4].
  destruct (hdata e4) as [ev4|] eqn:Hd4; [|discriminate].
  pose proof (iv_fresh _ _ _ (v_tbl _ I)) as FR. rewrite Forall_forall in FR. pose proof (FR e He) as FRe. cbv beta in FRe.
  assert (FACT : hkey e4 = hkey e /\ hval e4 = hval e /\ ebusy ev4 = true /\ waiting (hkey e) (log s4) = waiting (hkey e) (log s2)).
  { destruct (r_ent _ _ HR e4 He4) as [[X _]|(e3 & He3 & K1 & K2 & K3 & ev3 & ev3' & K4 & K5 & K6 & K7)].
    - rewrite NP, HP4 in X. lia.
    - destruct (CASE e3 He3) as [(ev1 & -> & B1)|(_ & N & _)]; [|congruence].
      cbn [hkey hptr hval hdata] in *. injection K4 as <-. assert (ev3' = ev4) by congruence. subst ev3'.
      repeat split; auto; congruence. }
  destruct FACT as (K4 & V4 & B4 & W4).
  pose proof (v_ent _ I4) as E4. rewrite Forall_forall in E4. destruct (E4 e4 He4) as (ev' & D1 & D2 & D3 & D4).
  assert (ev' = ev4) by congruence. subst ev'. rewrite K4, W4, W in D4.
  pose proof (v_ent _ I) as E0. rewrite Forall_forall in E0.
  (* entries of s4 other than e4 come from s *)
  assert (OTH : forall x, In x (Ents s4) -> hptr x <> hptr e -> hkey x <> hkey e ->
     ((nextp (tbl s) <= hptr x)%nat /\ evIdx s < hkey x /\ idle x) \/
     exists y, In y (Ents s) /\ hptr x = hptr y /\ hkey x = hkey y /\ hval x = hval y /\
       exists ev ev', hdata y = Some ev /\ hdata x = Some ev' /\ ebusy ev' = ebusy ev /\
         (ebusy ev = true -> waiting (hkey y) (log s4) = waiting (hkey y) (log s))).
  { intros x Hx N1 N2. destruct (r_ent _ _ HR x Hx) as [[X Y]|(e3 & He3 & J1 & J2 & J3 & ev3 & ev3' & J4 & J5 & J6 & J7)].
    - left. rewrite <- NP, <- EI. auto.
    - right. destruct (CASE e3 He3) as [(ev1 & -> & B1)|(H3 & _ & _)]; [cbn [hptr] in J1; congruence|].
      exists e3. split; auto. split; auto. split; auto. split; auto. exists ev3, ev3'. split; auto. split; auto. split; auto.
      intros Hb. rewrite (J7 Hb), L2. apply waiting_other. simpl. congruence. }
  assert (RL : exists l, log s4 = l ++ log s /\ Forall (fun k => evIdx s < k) (ids l)).
  { destruct (r_log _ _ HR) as (l & A & B). exists (l ++ [ORun (hkey e) nn cur]).
    rewrite A, L2, <- app_assoc, ids_app. split; auto. cbn [ids]. rewrite app_nil_r, <- EI. auto. }
  assert (RUN : ran (hkey e) (log s4)).
  { destruct (r_log _ _ HR) as (l & A & B). exists nn, cur. rewrite A, L2, in_app_iff. right; left; auto. }
  pose proof (r_idx _ _ HR) as RI. rewrite EI in RI. pose proof (r_ptr _ _ HR) as RP. rewrite NP in RP.
  cbn [eonce with_busy] in HA. destruct (eonce ev4) eqn:EO.
  - (* once: freed *)
    destruct ms0 as [[ms once]|]; [|discriminate].
    destruct D4 as (_ & Q2 & _). subst once.
    unfold event_free in HA.
    change (tbl (set_event (hptr e) (with_busy false ev4) s4)) with (value_set (hptr e) (Some (with_busy false ev4)) (tbl s4)) in HA.
    rewrite HP4, value_set_twice in HA.
    set (e5 := mkH (hptr e4) (hkey e4) (hval e4) (None (A := event))).
    rewrite (delete_data e4 e5) in HA by reflexivity.
    assert (H5 : In e5 (ents (value_set (hptr e) None (tbl s4)))).
    { rewrite ents_value_set, <- HP4. unfold e5. rewrite <- setv_hit. now apply in_map. }
    pose proof (inv_value_set PK oneword_kind (hptr e) None _ (v_tbl _ I4)) as IV.
    destruct (delete_ok PK oneword_kind GK _ e5 IV H5) as (t' & DD & I' & PE & _ & NP' & _).
    rewrite DD in HA. cbn [of_opt rbind] in HA. injection HA as <-.
    assert (CS : forall x, In x (ents t') -> In x (Ents s4) /\ hkey x <> hkey e /\ hptr x <> hptr e).
    { intros x Hx.
      assert (P1 := iv_keys _ _ _ IV). assert (P2 := iv_ptrs _ _ _ IV).
      eapply Permutation_NoDup in P1; [|apply Permutation_map; exact PE].
      eapply Permutation_NoDup in P2; [|apply Permutation_map; exact PE]. simpl in P1, P2.
      inversion P1 as [|? ? P3 _]; inversion P2 as [|? ? P4 _]; subst.
      assert (N1 : hkey x <> hkey e) by (intros E; apply P3; rewrite K4, <- E; now apply in_map).
      assert (N2 : hptr x <> hptr e) by (intros E; apply P4; rewrite HP4, <- E; now apply in_map).
      split; auto. assert (Hx' : In x (ents (value_set (hptr e) None (tbl s4)))) by (eapply Permutation_in; [symmetry; exact PE|right; auto]).
      rewrite ents_value_set in Hx'. apply in_map_iff in Hx'. destruct Hx' as (y & Y1 & Y2).
      assert (hptr y = hptr x) by (rewrite <- Y1; symmetry; apply setv_ptr).
      rewrite <- Y1. rewrite setv_miss by congruence. auto. }
    split.
    + destruct I4 as [a1 a2 a3 a4 a5 a6 a7 a8 a9]. constructor; cbn [with_tbl set_event tbl evIdx log passes]; auto.
      * rewrite Forall_forall. intros x Hx. apply CS in Hx. destruct Hx; auto.
      * intros k HP. destruct (Z.eq_dec k (hkey e)) as [->|N].
        -- exfalso. destruct HP as (b & ms' & once & HW & _ & HR2). rewrite W4, W in HW. injection HW as <- <- <-. exact (HR2 eq_refl RUN).
        -- apply a9 in HP. rewrite in_map_iff in HP. destruct HP as (x & <- & Hx).
           assert (hptr x <> hptr e). { intros E. apply N. rewrite <- K4. f_equal.
             eapply NoDup_map_inj with (f := hptr); [apply (iv_ptrs _ _ _ a1)|auto|auto|congruence]. }
           assert (Hx' : In x (ents (value_set (hptr e) None (tbl s4)))).
           { rewrite ents_value_set. rewrite <- (setv_miss e x None) by auto. now apply in_map. }
           eapply Permutation_in in Hx'; [|exact PE]. destruct Hx' as [<-|Hx']; [|now apply in_map].
           exfalso. apply H. unfold e5; simpl. auto.
    + constructor; cbn [with_tbl set_event tbl evIdx log passes]; auto.
      * rewrite NP'. simpl. lia.
      * intros x Hx. apply CS in Hx. destruct Hx as (Hx & N1 & N2).
        destruct (OTH x Hx N2 N1) as [X|(y & Hy & J1 & J2 & J3 & J4)]; [auto|]. right. exists y. split; auto.
        split; auto.
  - (* rescheduled *)
    injection HA as <-.
    set (ev5 := with_due (due_at cur (einitial (with_busy false ev4))) (with_busy false ev4)).
    assert (TE : tbl (set_event (hptr e) ev5 (set_event (hptr e) (with_busy false ev4) s4)) = tbl (set_event (hptr e4) ev5 s4)).
    { rewrite HP4. apply value_set_twice. }
    set (s5 := set_event (hptr e) ev5 (set_event (hptr e) (with_busy false ev4) s4)) in *.
    assert (OK5 : entry_ok (log s4) (mkH (hptr e4) (hkey e4) (hval e4) (Some ev5))).
    { exists ev5. cbn [hdata hkey]. split; auto. split; auto. split; auto. rewrite K4, W4, W.
      destruct ms0 as [[ms once]|]; [|exact EO]. destruct D4 as (Q1 & Q2 & Q3 & Q4 & Q5).
      split; [exact Q1|]. split; [cbn [ev5 with_due with_busy eonce]; congruence|]. split; [exact Q3|]. split.
      - intros _. unfold ev5. cbn [with_due with_busy ewsec ewms einitial]. now destruct (due_at cur (einitial ev4)).
      - intros -> _. discriminate. }
    assert (I5 : Inv s5).
    { eapply Inv_ext; [exact TE|reflexivity|reflexivity|reflexivity|]. now apply Inv_set_event. }
    split; auto. constructor; cbn [s5 with_tbl set_event tbl evIdx log passes]; auto.
    intros x Hx. change (In x (Ents s5)) in Hx. rewrite TE in Hx. apply in_set_event in Hx; [|apply (v_tbl _ I4)|auto].
    destruct Hx as [->|(Hx & N1 & N2)].
    + right. exists e. split; auto. split; [exact HP4|]. split; [exact K4|]. split; [exact V4|].
      exists ev0, ev5. split; auto. split; auto. split; [rewrite HB; reflexivity|]. intros; congruence.
    + rewrite HP4 in N1. rewrite K4 in N2.
      destruct (OTH x Hx N1 N2) as [X|(y & Hy & J1 & J2 & J3 & J4)]; [auto|]. right. exists y. split; auto. split; auto.
Qed.
