(** Passes whose callbacks only create events do not crash. *)
From Coq Require Import ZArith List Bool Lia Permutation.
Import ListNotations.
From Verif Require Import TreeModel TreeSpec HashModel HashSpec HashProofs HashProps Bits LimitModel EventModel EventSpec EventProofs EventProofs2 EventProofs3 EventProofs4 EventProofs5 EventProofs6.
Local Open Scope Z_scope.

Definition cost1 (a : action) : nat := match a with ASet _ _ | AHandler | ANew => 1 | _ => 0 end.
Definition cost (l : list action) : nat := list_sum (map cost1 l).
Definition total (sc : list (list action)) : nat := list_sum (map cost sc).
Definition made (s : st) : nat := length (ids (log s)).
Definition weight (s : st) : nat := (made s + total (script s))%nat.
Definition LIM : Z := 805306368.

Lemma few_made : forall s, Z.of_nat (made s) < LIM -> few s.
Proof. unfold few, made, LIM. intros. lia. Qed.

Lemma entries_le : forall s, Inv s -> (length (Ents s) <= made s)%nat.
Proof.
  intros s I. unfold made. rewrite <- (map_length hkey (Ents s)). apply NoDup_incl_length; [apply (iv_keys _ _ _ (v_tbl _ I))|].
  intros k Hk. apply in_map_iff in Hk. destruct Hk as (e & <- & He). eapply key_in_ids; eauto.
Qed.
Lemma fresh_total : forall f s, Inv s -> Z.of_nat (made s) + 1 < LIM -> fresh_entry f s <> Crash.
Proof.
  intros [|f] s I HM; cbn [fresh_entry]; [discriminate|].
  assert (Pk : PK (evIdx s + 1)) by (unfold PK; pose proof (v_idx _ I); unfold made, LIM in *; lia).
  destruct (hash_entry_new oneword_kind (evIdx s + 1) (tbl s)) as [[[e0 nw] t]|] eqn:HN; cbn [of_opt rbind].
  - destruct (entry_new_ok PK oneword_kind GK _ _ _ _ _ (v_tbl _ I) Pk HN) as (A & B & C & D). destruct nw; [discriminate|].
    exfalso. destruct D as [_ D]. apply key_range in D; auto. lia.
  - exfalso. pose proof (entry_new_fails PK oneword_kind _ _ (v_tbl _ I) Pk HN) as H.
    rewrite (iv_num _ _ _ (v_tbl _ I)) in H. pose proof (entries_le s I). unfold LIM in *. lia.
Qed.

Definition ptrs (s : st) : list nat := map hptr (Ents s).

Definition safe_result (s : st) (k : nat) (r : res st) : Prop :=
  r <> Crash /\ forall s', r = Ok s' -> Inv s' /\ (made s' <= made s + k)%nat /\ script s' = script s /\
    incl (ptrs s) (ptrs s').

Lemma ptrs_set_event : forall p ev s, ptrs (set_event p ev s) = ptrs s.
Proof. intros. unfold ptrs. rewrite ents_set_event, map_map. apply map_ext. intros; apply setv_ptr. Qed.

Lemma made_safe : forall f s o ev e s1, Inv s -> Z.of_nat (made s) + 1 < LIM -> fresh_entry f s = Ok (e, s1) ->
  about o = Some (evIdx s + 1) ->
  ((exists ms once t, o = OSet (evIdx s + 1) ms once t /\
      ekind ev = KTimer /\ eonce ev = once /\ einitial ev = Z.max 0 ms /\ ebusy ev = false /\
      (ewsec ev, ewms ev) = due_at t (einitial ev)) \/
   (o = ONew (evIdx s + 1) /\ eonce ev = false /\ ebusy ev = false)) ->
  forall s2, tbl s2 = tbl (set_event (hptr e) ev s1) -> evIdx s2 = evIdx s1 -> passes s2 = passes s1 ->
    log s2 = o :: log s1 -> script s2 = script s1 ->
  safe_result s 1 (Ok s2).
Proof.
  intros f s o ev e s1 I HM F HA HO2 s2 T2 E2 P2 L2 S2. split; [discriminate|]. intros s' E. injection E as <-.
  assert (HB : evIdx s + 1 < 2 ^ 64) by (rewrite (v_idx _ I); unfold made, LIM in *; lia).
  destruct (create_ok f s e s1 o ev I HB F HA HO2 s2 T2 E2 P2 L2) as [I2 R2].
  destruct (fresh_ok _ _ _ _ I HB F) as (F1 & F2 & F3 & F4 & F5 & F6 & F7 & F8 & F9 & F10 & F11 & F12).
  split; auto. split; [|split; [congruence|]].
  - unfold made. rewrite L2, F9. destruct HO2 as [(ms & once & t & -> & _)|(-> & _)]; cbn [ids length]; lia.
  - unfold ptrs. rewrite T2. fold (ptrs (set_event (hptr e) ev s1)). rewrite ptrs_set_event. unfold ptrs.
    intros p Hp. eapply Permutation_in; [symmetry; apply Permutation_map; exact F5|right; auto].
Qed.
Lemma set_safe : forall f ms once s, Inv s -> Z.of_nat (made s) + 1 < LIM -> safe_result s 1 (interval_timer f ms once s).
Proof.
  intros f ms once s I HM. unfold interval_timer. pose proof (fresh_total f s I HM) as FT.
  destruct (fresh_entry f s) as [[e s1]| |] eqn:F; cbn [rbind]; [|congruence|split; [discriminate|intros; discriminate]].
  destruct (due_at _ _) as [ws wm] eqn:DU.
  assert (HB : evIdx s + 1 < 2 ^ 64) by (rewrite (v_idx _ I); unfold made, LIM in *; lia).
  destruct (fresh_ok _ _ _ _ I HB F) as (_ & A2 & _).
  eapply (made_safe f s (OSet (hkey e) ms once (now s1))); [exact I|exact HM|exact F|simpl; congruence| |reflexivity..].
  left. exists ms, once, (now s1). rewrite A2. split; auto. split; [reflexivity|]. split; [reflexivity|].
  cbn [einitial ebusy ewsec ewms]. split; [destruct (ms <? 0) eqn:M; b2p; lia|]. split; auto.
Qed.
Lemma handler_safe : forall f s, Inv s -> Z.of_nat (made s) + 1 < LIM -> safe_result s 1 (add_handler f s).
Proof.
  intros f s I HM. unfold add_handler. destruct (negb _).
  { split; [discriminate|]. intros s' E. injection E as <-. split; auto. split; [lia|]. split; auto. apply incl_refl. }
  pose proof (fresh_total f s I HM) as FT.
  destruct (fresh_entry f s) as [[e s1]| |] eqn:F; cbn [rbind]; [|congruence|split; [discriminate|intros; discriminate]].
  assert (HB : evIdx s + 1 < 2 ^ 64) by (rewrite (v_idx _ I); unfold made, LIM in *; lia).
  destruct (fresh_ok _ _ _ _ I HB F) as (_ & A2 & _).
  eapply (made_safe f s (ONew (hkey e)) (mkEv KAlways false 0 0 0 false 0)); [exact I|exact HM|exact F|simpl; congruence| |reflexivity..].
  right. rewrite A2. auto.
Qed.
Lemma new_safe : forall f s, Inv s -> Z.of_nat (made s) + 1 < LIM -> safe_result s 1 (event_new f s).
Proof.
  intros f s I HM. unfold event_new. pose proof (fresh_total f s I HM) as FT.
  destruct (fresh_entry f s) as [[e s1]| |] eqn:F; cbn [rbind]; [|congruence|split; [discriminate|intros; discriminate]].
  assert (HB : evIdx s + 1 < 2 ^ 64) by (rewrite (v_idx _ I); unfold made, LIM in *; lia).
  destruct (fresh_ok _ _ _ _ I HB F) as (_ & A2 & _).
  eapply (made_safe f s (ONew (hkey e)) (mkEv KTimer false 0 0 0 false 0)); [exact I|exact HM|exact F|simpl; congruence| |reflexivity..].
  right. rewrite A2. auto.
Qed.
Lemma tick_inv : forall s d, Inv s ->
  Inv (mkSt (tbl s) (evIdx s) (hdlId s) (now s + d) (script s) (passes s) (log s)).
Proof. intros s d I. eapply Inv_ext; [..|exact I]; auto. Qed.

Lemma creates_safe : forall f acts s, Forall only_creates acts -> Inv s ->
  Z.of_nat (made s + cost acts) < LIM -> safe_result s (cost acts) (run_acts f acts s).
Proof.
  induction f as [|f IH]; intros acts s HO I HM; cbn [run_acts]; [split; [discriminate|intros; discriminate]|].
  destruct acts as [|a r].
  { split; [discriminate|]. intros s' E. injection E as <-. split; auto. split; [lia|]. split; auto. apply incl_refl. }
  inversion HO as [|a' r' Ha Hr]; subst. change (cost (a :: r)) with (cost1 a + cost r)%nat in *.
  assert (STEP : forall x, safe_result s (cost1 a) x ->
            safe_result s (cost1 a + cost r) (rbind x (fun s' => run_acts f r s'))).
  { intros x [X1 X2]. destruct x as [s1| |]; cbn [rbind]; [|congruence|split; [discriminate|intros; discriminate]].
    destruct (X2 s1 eq_refl) as (I1 & M1 & S1 & P1).
    destruct (IH r s1 Hr I1) as [Y1 Y2]; [lia|]. split; auto. intros s' E. destruct (Y2 s' E) as (I2 & M2 & S2 & P2).
    split; auto. split; [lia|]. split; [congruence|]. eapply incl_tran; eauto. }
  apply STEP.
  destruct a as [d|ms once|id| | |m|mt sl]; try contradiction.
  - split; [discriminate|]. intros s' E. injection E as <-.
    split; [now apply tick_inv|]. split; [unfold made; simpl; lia|]. split; auto. apply incl_refl.
  - apply set_safe; auto. cbn [cost1] in HM. lia.
  - apply handler_safe; auto. cbn [cost1] in HM. lia.
  - apply new_safe; auto. cbn [cost1] in HM. lia.
Qed.

(** The search position is valid: the entry fetched in advance is alive. *)
Definition pos_ok (hs : hsearch) (s : st) : Prop :=
  match nextEntry hs with None => True | Some p => In p (ptrs s) end.

Lemma chain_from_valid : forall p (l : list eentry), In p (map hptr l) -> exists e c, chain_from p l = Some (e :: c).
Proof.
  induction l as [|x l IH]; simpl; intros H; [tauto|]. destruct (Nat.eqb (hptr x) p) eqn:E; [eauto|].
  apply Nat.eqb_neq in E. apply IH. tauto.
Qed.
Lemma deref_valid : forall p (bs : list (list eentry)), In p (map hptr (concat bs)) -> exists e c, deref p bs = Some (e :: c).
Proof.
  induction bs as [|b bs IH]; simpl; intros H; [tauto|]. rewrite map_app, in_app_iff in H.
  destruct (chain_from p b) as [c0|] eqn:E.
  - destruct (in_dec Nat.eq_dec p (map hptr b)) as [J|J].
    + apply chain_from_valid in J. destruct J as (e & c & J). rewrite E in J. injection J as ->. eauto.
    + rewrite chain_from_none in E by auto. discriminate.
  - apply IH. destruct H as [J|J]; auto. apply chain_from_valid in J. destruct J as (e & c & J). congruence.
Qed.
Lemma chain_from_suffix : forall p (l : list eentry) c, chain_from p l = Some c -> exists pre, l = pre ++ c.
Proof.
  induction l as [|x l IH]; simpl; intros c H; [discriminate|]. destruct (Nat.eqb (hptr x) p).
  - injection H as <-. exists []. auto.
  - apply IH in H. destruct H as [pre ->]. exists (x :: pre). auto.
Qed.
Lemma deref_suffix : forall p (bs : list (list eentry)) c, deref p bs = Some c -> exists b pre, In b bs /\ b = pre ++ c.
Proof.
  induction bs as [|b bs IH]; simpl; intros c H; [discriminate|].
  destruct (chain_from p b) as [c0|] eqn:E.
  - injection H as <-. apply chain_from_suffix in E. destruct E as [pre ->]. exists (pre ++ c0), pre. auto.
  - apply IH in H. destruct H as (b' & pre & A & B). exists b', pre. auto.
Qed.
Lemma scan_bucket : forall (bs : list (list eentry)) i e c n, scan bs i = (Some (e, c), n) -> In (e :: c) bs.
Proof.
  induction bs as [|[|x b] bs IH]; simpl; intros i e c n H; [discriminate|eauto|].
  injection H as -> -> _. auto.
Qed.
Lemma next_valid : forall s hs, hinv (tbl s) -> pos_ok hs s ->
  match hash_next (tbl s) hs with
  | HCrash => False
  | HEnd => True
  | HEntry e hs' => match nextEntry hs' with None => True | Some q => In q (ptrs s) /\ q <> hptr e end
  end.
Proof.
  intros s hs I HP.
  assert (TAIL : forall b pre e c, In b (buckets (tbl s)) -> b = pre ++ e :: c ->
     match head_ptr c with None => True | Some q => In q (ptrs s) /\ q <> hptr e end).
  { intros b pre e c Hb E. destruct c as [|e2 c]; cbn [head_ptr]; auto. split.
    - unfold ptrs, ents. apply in_map_iff. exists e2. split; auto. apply in_concat. exists b. split; auto.
      rewrite E. apply in_or_app. right. right. left. auto.
    - intros Q. apply In_nth with (d := []) in Hb. destruct Hb as (i & _ & Hb).
      pose proof (NoDup_nth_map (buckets (tbl s)) i (iv_ptrs _ _ _ I)) as N. rewrite Hb, E, map_app in N.
      apply nodup_app_r in N. cbn [map] in N. inversion N as [|a l H1 H2]; subst. apply H1. left. auto. }
  unfold hash_next. unfold pos_ok in HP. destruct (nextEntry hs) as [p|].
  - destruct (deref_valid p (buckets (tbl s)) HP) as (e & c & D). rewrite D. cbn [nextEntry].
    apply deref_suffix in D. destruct D as (b & pre & Hb & E). eapply TAIL; eauto.
  - destruct (scan (skipn (nextIndex hs) (buckets (tbl s))) (nextIndex hs)) as [[[e c]|] i] eqn:SC; auto.
    cbn [nextEntry]. apply scan_bucket in SC. apply in_skipn in SC. eapply (TAIL _ []); eauto.
Qed.

Definition good_script (sc : list (list action)) : Prop := Forall (Forall only_creates) sc.

Lemma after_safe : forall cur p s4 e4, Inv s4 -> In e4 (Ents s4) -> hptr e4 = p ->
  exists s5, after_call cur p s4 = Ok s5 /\ log s5 = log s4 /\ script s5 = script s4 /\
    forall q, In q (ptrs s4) -> q <> p -> In q (ptrs s5).
Proof.
  intros cur p s4 e4 I He HP. subst p. unfold after_call.
  assert (AP : exists e, at_ptr (hptr e4) s4 = Some e).
  { unfold at_ptr. fold (Ents s4). destruct (find _ (Ents s4)) as [e|] eqn:F; [eauto|].
    eapply find_none in F; [|exact He]. cbv beta in F. rewrite Nat.eqb_refl in F. discriminate. }
  destruct AP as (e & AP). rewrite AP. apply at_ptr_some in AP. destruct AP as [He' HE].
  assert (e = e4) by (eapply NoDup_map_inj with (f := hptr); [apply (iv_ptrs _ _ _ (v_tbl _ I))|auto|auto|auto]). subst e.
  pose proof (v_ent _ I) as FE. rewrite Forall_forall in FE. destruct (FE e4 He) as (ev & D & _). rewrite D.
  cbn [eonce with_busy]. destruct (eonce ev).
  - unfold event_free.
    change (tbl (set_event (hptr e4) (with_busy false ev) s4)) with (value_set (hptr e4) (Some (with_busy false ev)) (tbl s4)).
    rewrite value_set_twice.
    set (e5 := mkH (hptr e4) (hkey e4) (hval e4) (None (A := event))).
    rewrite (delete_data e4 e5) by reflexivity.
    assert (H5 : In e5 (ents (value_set (hptr e4) None (tbl s4)))).
    { rewrite ents_value_set. unfold e5. rewrite <- setv_hit. now apply in_map. }
    pose proof (inv_value_set PK oneword_kind (hptr e4) None _ (v_tbl _ I)) as IV.
    destruct (delete_ok PK oneword_kind GK _ e5 IV H5) as (t' & DD & I' & PE & _ & NP' & _).
    rewrite DD. cbn [of_opt rbind]. eexists. split; [reflexivity|]. cbn [with_tbl set_event log script].
    split; auto. split; auto. intros q Hq N. unfold ptrs. cbn [with_tbl tbl].
    assert (Hq' : In q (map hptr (ents (value_set (hptr e4) None (tbl s4))))).
    { rewrite ents_value_set, map_map. rewrite (map_ext _ hptr); [exact Hq|]. intros; apply setv_ptr. }
    eapply Permutation_in in Hq'; [|apply Permutation_map; exact PE]. simpl in Hq'. destruct Hq'; [congruence|auto].
  - eexists. split; [reflexivity|]. cbn [set_event with_tbl log script]. split; auto. split; auto.
    intros q Hq _. change (In q (ptrs (set_event (hptr e4) (with_due (due_at cur (einitial (with_busy false ev))) (with_busy false ev)) (set_event (hptr e4) (with_busy false ev) s4)))).
    rewrite !ptrs_set_event. auto.
Qed.

Lemma walk_safe : forall f m cur ni n cnt hs s, Inv s -> ctx cur ni n s -> pos_ok hs s -> good_script (script s) ->
  Z.of_nat (weight s) < LIM ->
  walk f m cur ni n cnt hs s <> Crash /\
  forall x s', walk f m cur ni n cnt hs s = Ok (x, s') -> Inv s' /\ (weight s' <= weight s)%nat /\ good_script (script s').
Proof.
  induction f as [|f IH]; intros m cur ni n cnt hs s I C HP HG HW; [cbn [walk]; split; [discriminate|intros; discriminate]|].
  cbn [walk]. pose proof (next_valid s hs (v_tbl _ I) HP) as NV.
  destruct (hash_next (tbl s) hs) as [|e hs'|] eqn:HN; [|clear HP|contradiction].
  { split; [discriminate|]. intros x s' E. injection E as <- <-. auto. }
  apply next_in in HN. change (In e (Ents s)) in HN.
  assert (POS : forall s5, (forall q, In q (ptrs s) -> q <> hptr e -> In q (ptrs s5)) -> pos_ok hs' s5).
  { intros s5 H. unfold pos_ok. destruct (nextEntry hs') as [q|]; auto. destruct NV; auto. }
  assert (SKIP : forall cnt', walk f m cur ni n cnt' hs' s <> Crash /\
     forall x s', walk f m cur ni n cnt' hs' s = Ok (x, s') -> Inv s' /\ (weight s' <= weight s)%nat /\ good_script (script s')).
  { intros. apply IH; auto. }
  destruct (hdata e) as [ev|] eqn:Hd; [|apply SKIP].
  destruct (ni <? wrap32 (hkey e)) eqn:Hni; [apply SKIP|].
  match goal with |- context [if ?b then walk f m cur ni n cnt hs' s else _] => destruct b eqn:HD end; [apply SKIP|].
  set (timer := match ekind ev with KTimer => true | KAlways => false end).
  set (ev1 := if timer then counted ev else ev). set (cnt1 := if timer then cnt + 1 else cnt).
  assert (Q : ekind ev1 = ekind ev /\ eonce ev1 = eonce ev /\ einitial ev1 = einitial ev /\ ebusy ev1 = ebusy ev /\ ewsec ev1 = ewsec ev /\ ewms ev1 = ewms ev)
    by (unfold ev1; destruct timer; auto 10).
  destruct Q as (Q1 & Q2 & Q3 & Q4 & Q5 & Q6).
  pose proof (v_ent _ I) as FE. rewrite Forall_forall in FE. destruct (FE e HN) as (ev' & D1 & D2 & D3 & D4).
  assert (ev' = ev) by congruence. subst ev'.
  assert (Hk : hkey e <= ni).
  { pose proof (key_range s e I HN). pose proof (v_idx _ I). unfold weight, made, LIM in HW.
    apply Z.ltb_ge in Hni. rewrite wrap32_id in Hni by lia. exact Hni. }
  assert (OK1 : entry_ok (log s) (mkH (hptr e) (hkey e) (hval e) (Some ev1))).
  { exists ev1. cbn [hdata hkey]. split; auto. split; auto. split; auto.
    destruct (waiting (hkey e) (log s)) as [[[b ms] once]|]; rewrite ?Q1, ?Q2, ?Q3, ?Q4, ?Q5, ?Q6; auto. }
  assert (I1 : Inv (set_event (hptr e) ev1 s)) by (apply Inv_set_event; auto).
  destruct (ebusy ev1) eqn:HB.
  - assert (X : pos_ok hs' (set_event (hptr e) ev1 s)) by (apply POS; intros; now rewrite ptrs_set_event).
    apply (IH m cur ni n cnt1 hs' (set_event (hptr e) ev1 s)); auto.
  - match goal with |- context [next_acts ?z] => destruct (next_acts z) as [acts s3] eqn:NA end.
    assert (SC : Forall only_creates acts /\ good_script (script s3) /\ total (script s) = (cost acts + total (script s3))%nat).
    { clear - NA HG. unfold next_acts in NA.
      match type of NA with match ?x with _ => _ end = _ => change x with (script s) in NA end.
      destruct (script s) as [|a r] eqn:SC; injection NA as <- <-.
      - cbn [logging set_event with_tbl script]. rewrite SC. split; auto.
      - inversion HG; subst. auto. }
    destruct SC as (SC1 & SC2 & SC3).
    apply next_acts_same in NA. destruct NA as (N1 & N2 & N3 & N4 & _).
    assert (TS : tbl s3 = value_set (hptr e) (Some (with_busy true ev1)) (tbl s)).
    { rewrite N1. apply value_set_twice. }
    assert (EB : ebusy ev = false) by congruence.
    assert (ED : ekind ev = KTimer -> not_due cur ev = false) by (intros E; rewrite E in HD; exact HD).
    destruct (call_ok cur ni n s e ev (with_busy true ev1) I C HN Hd Hk ED EB) with (s2 := s3) as (I3 & AFT); auto.
    assert (M3 : made s3 = made s) by (unfold made; rewrite N4; reflexivity).
    assert (HM : Z.of_nat (made s3 + cost acts) < LIM) by (unfold weight in HW; lia).
    destruct (creates_safe f acts s3 SC1 I3 HM) as [CS1 CS2].
    destruct (run_acts f acts s3) as [s4| |] eqn:ER; cbn [rbind]; [|congruence|split; [discriminate|intros; discriminate]].
    destruct (CS2 s4 eq_refl) as (I4 & M4 & S4 & P4).
    assert (PE : In (hptr e) (ptrs s4)).
    { apply P4. unfold ptrs. rewrite TS. fold (Ents (set_event (hptr e) (with_busy true ev1) s)).
      change (In (hptr e) (ptrs (set_event (hptr e) (with_busy true ev1) s))). rewrite ptrs_set_event. now apply in_map. }
    apply in_map_iff in PE. destruct PE as (e4 & E4 & He4).
    destruct (after_safe cur (hptr e) s4 e4 I4 He4 E4) as (s5 & A5 & L5 & S5 & P5).
    destruct (all_ok f) as (_ & AR & _).
    assert (F4 : few s4) by (apply few_made; unfold weight in *; lia).
    destruct (AR _ _ _ ER I3 F4) as [_ R4]. destruct (AFT s4 s5 I4 R4 A5) as [I5 R5].
    rewrite A5. cbn [rbind].
    assert (M5 : made s5 = made s4) by (unfold made; now rewrite L5).
    assert (W5 : (weight s5 <= weight s)%nat) by (unfold weight; rewrite M5, S5, S4; lia).
    assert (G5 : good_script (script s5)) by (rewrite S5, S4; auto).
    destruct ((0 <=? m) && (m <=? cnt1)).
    + split; [discriminate|]. intros x s' E. injection E as <- <-. auto.
    + assert (X : pos_ok hs' s5).
      { apply POS. intros q Hq N. apply P5; auto. apply P4. unfold ptrs. rewrite TS.
        change (In q (ptrs (set_event (hptr e) (with_busy true ev1) s))). rewrite ptrs_set_event. auto. }
      destruct (IH m cur ni n cnt1 hs' s5 I5 (ctx_R _ _ _ _ _ C R5) X G5) as [Y1 Y2]; [lia|].
      split; auto. intros x s' E. destruct (Y2 x s' E) as (Z1 & Z2 & Z3). split; auto. split; [lia|auto].
Qed.

Definition safe_run (s : st) (k : nat) (r : res st) : Prop :=
  r <> Crash /\ forall s', r = Ok s' -> Inv s' /\ (weight s' <= weight s + k)%nat /\ good_script (script s').

Lemma process_safe : forall f m s, Inv s -> good_script (script s) -> Z.of_nat (weight s) < LIM ->
  process f m s <> Crash /\
  forall x s', process f m s = Ok (x, s') -> Inv s' /\ (weight s' <= weight s)%nat /\ good_script (script s').
Proof.
  intros [|f] m s I HG HW; cbn [process]; [split; [discriminate|intros; discriminate]|].
  set (s1 := mkSt (tbl s) (evIdx s) (hdlId s) (now s) (script s) (passes s + 1) (OPass (passes s) (now s) :: log s)).
  assert (HI : 0 <= evIdx s < 2 ^ 31).
  { unfold weight, made, LIM in HW. rewrite (v_idx _ I). lia. }
  assert (I1 : Inv s1).
  { assert (X : Inv (logging (OPass (passes s) (now s)) (mkSt (tbl s) (evIdx s) (hdlId s) (now s) (script s) (passes s + 1) (log s)))).
    { apply Inv_logging; auto.
      - destruct I as [a1 a2 a3 a4 a5 a6 a7 a8 a9]. constructor; cbn [tbl evIdx log passes]; auto.
        intros n t J. apply a6 in J. lia.
      - cbn [obs_ok log]. intros n' t' J. eapply (v_pass _ I); eauto.
      - intros n t E. injection E as <- <-. simpl. lia. }
    exact X. }
  rewrite wrap32_id by lia.
  assert (C1 : ctx (now s) (evIdx s) (passes s) s1).
  { split; [simpl; lia|]. exists [], (log s). split; [reflexivity|constructor]. }
  exact (walk_safe f m (now s) (evIdx s) (passes s) 0 hash_first_state s1 I1 C1 (Logic.I) HG HW).
Qed.

Lemma update_safe : forall f mt st0 sl s, Inv s -> good_script (script s) -> Z.of_nat (weight s) < LIM ->
  safe_run s 0 (update f mt st0 sl s).
Proof.
  induction f as [|f IH]; intros mt st0 sl s I HG HW; cbn [update]; [split; [discriminate|intros; discriminate]|].
  destruct (process_safe f (-1) s I HG HW) as [P1 P2].
  destruct (process f (-1) s) as [[x s1]| |]; cbn [rbind]; [|congruence|split; [discriminate|intros; discriminate]].
  destruct (P2 x s1 eq_refl) as (I1 & W1 & G1).
  assert (D : safe_run s 0 (Ok s1)).
  { split; [discriminate|]. intros s' E. injection E as <-. split; auto. split; [lia|auto]. }
  destruct (mt =? 0); auto.
  destruct ((0 <? mt) && (mt <=? diftime st0 (now s1))) eqn:HT.
  - split; [discriminate|]. intros s' E. injection E as <-.
    split; [|split; [unfold weight, made in *; cbn [logging log ids script]; lia|auto]].
    apply Inv_logging; auto; [|discriminate]. cbn [obs_ok]. apply andb_true_iff in HT. destruct HT as [H1 H2]. b2p.
    unfold diftime in H2. unfold sec, msec in *.
    pose proof (Z.div_mod st0 1000 ltac:(lia)). pose proof (Z.mod_pos_bound st0 1000 ltac:(lia)).
    pose proof (Z.div_mod (now s1) 1000 ltac:(lia)). pose proof (Z.mod_pos_bound (now s1) 1000 ltac:(lia)).
    destruct (now s1 / 1000 =? st0 / 1000) eqn:E; b2p; lia.
  - destruct sl as [|d r]; auto.
    set (s2 := mkSt (tbl s1) (evIdx s1) (hdlId s1) (now s1 + d) (script s1) (passes s1) (log s1)).
    assert (I2 : Inv s2) by (eapply Inv_ext; [..|exact I1]; auto).
    assert (W2 : weight s2 = weight s1) by reflexivity.
    destruct (IH mt st0 r s2 I2 G1) as [Y1 Y2]; [lia|]. split; auto. intros s' E. destruct (Y2 s' E) as (A & B & C0).
    split; auto. split; [lia|auto].
Qed.

Lemma run_safe : forall f acts s, Inv s -> good_script (script s) -> Z.of_nat (weight s + cost acts) < LIM ->
  safe_run s (cost acts) (run_acts f acts s).
Proof.
  induction f as [|f IH]; intros acts s I HG HM; cbn [run_acts]; [split; [discriminate|intros; discriminate]|].
  destruct acts as [|a r].
  { split; [discriminate|]. intros s' E. injection E as <-. split; auto. split; [lia|auto]. }
  change (cost (a :: r)) with (cost1 a + cost r)%nat in *.
  assert (STEP : forall x, safe_run s (cost1 a) x ->
            safe_run s (cost1 a + cost r) (rbind x (fun s' => run_acts f r s'))).
  { intros x [X1 X2]. destruct x as [s1| |]; cbn [rbind]; [|congruence|split; [discriminate|intros; discriminate]].
    destruct (X2 s1 eq_refl) as (I1 & M1 & S1).
    destruct (IH r s1 I1 S1) as [Y1 Y2]; [lia|]. split; auto. intros s' E. destruct (Y2 s' E) as (I2 & M2 & S2).
    split; auto. split; [lia|auto]. }
  apply STEP. clear STEP.
  assert (WEAK : forall k r, safe_result s k r -> safe_run s k r).
  { intros k x [X1 X2]. split; auto. intros s' E. destruct (X2 s' E) as (A & B & C0 & _). split; auto.
    unfold weight. rewrite C0. split; [lia|auto]. }
  destruct a as [d|ms once|id| | |m|mt sl].
  - split; [discriminate|]. intros s' E. injection E as <-.
    split; [now apply tick_inv|]. split; [unfold weight, made; simpl; lia|auto].
  - apply WEAK. apply set_safe; auto. cbn [cost1] in HM. unfold weight in HM. lia.
  - assert (X : exists s1, clear_interval id s = Ok s1 /\ (made s1 <= made s)%nat /\ script s1 = script s).
    { unfold clear_interval. cbv zeta. set (k := id mod 2 ^ 64).
      destruct (negb (hdlId s =? 0) && _); [exists s; auto|].
      destruct (hash_find oneword_kind k (tbl s)) as [e|] eqn:HF; [|exists s; auto].
      assert (Pk : PK k) by (apply Z.mod_pos_bound; lia).
      apply (find_spec PK oneword_kind GK) in HF; [|apply (v_tbl _ I)|auto]. destruct HF as [He Hk].
      destruct (delete_ok PK oneword_kind GK (tbl s) e (v_tbl _ I) He) as (t' & D & _). rewrite D.
      eexists. split; [reflexivity|]. split; [unfold made; simpl; lia|reflexivity]. }
    destruct X as (s1 & X1 & X2 & X3). rewrite X1. split; [discriminate|]. intros s' E. injection E as <-.
    destruct (clear_ok id s s1 I X1) as [I1 _]. split; auto. rewrite X3. split; [unfold weight; rewrite X3; lia|auto].
  - apply WEAK. apply handler_safe; auto. cbn [cost1] in HM. unfold weight in HM. lia.
  - apply WEAK. apply new_safe; auto. cbn [cost1] in HM. unfold weight in HM. lia.
  - destruct (process_safe f m s I HG) as [P1 P2]; [lia|].
    destruct (process f m s) as [[x s1]| |]; cbn [rbind]; [|congruence|split; [discriminate|intros; discriminate]].
    split; [discriminate|]. intros s' E. injection E as <-. destruct (P2 x s1 eq_refl) as (A & B & C0). split; auto. split; [lia|auto].
  - apply update_safe; auto. lia.
Qed.
