(** The main induction. *)
From Coq Require Import ZArith List Bool Lia Permutation.
Import ListNotations.
From Verif Require Import TreeModel TreeSpec HashModel HashSpec HashProofs HashProps Bits LimitModel EventModel EventSpec EventProofs EventProofs2 EventProofs3 EventProofs4.
Local Open Scope Z_scope.

Definition few (s : st) : Prop := Z.of_nat (length (ids (log s))) < 2 ^ 31.
Lemma few_back : forall s s', grows s s' -> few s' -> few s.
Proof. unfold few. intros s s' G H. apply grows_ids in G. lia. Qed.

(** The states before, during and after one callback. *)
Lemma call_ok : forall cur ni n s e ev ev1,
  Inv s -> ctx cur ni n s -> In e (Ents s) -> hdata e = Some ev -> hkey e <= ni ->
  (ekind ev = KTimer -> not_due cur ev = false) -> ebusy ev = false ->
  ekind ev1 = ekind ev -> eonce ev1 = eonce ev -> einitial ev1 = einitial ev -> ebusy ev1 = true ->
  forall s2, tbl s2 = value_set (hptr e) (Some ev1) (tbl s) -> evIdx s2 = evIdx s -> passes s2 = passes s ->
    log s2 = ORun (hkey e) n cur :: log s ->
  Inv s2 /\
  forall s4 s5, Inv s4 -> R s2 s4 -> after_call cur (hptr e) s4 = Ok s5 -> Inv s5 /\ R s s5.
Proof.
  intros cur ni n s e ev ev1 I C He Hd Hk HD HB K1 K2 K3 K4 s2 T2 E2 P2 L2.
  destruct (start_call cur ni n s e ev ev1 I C He Hd Hk HD HB K1 K2 K3 K4 s2 T2 E2 P2 L2) as (I2 & H2 & W).
  split; auto. intros s4 s5 I4 R4 A5.
  eapply (after_ok cur s e ev (match waiting (hkey e) (log s) with Some (_, ms, once) => Some (ms, once) | None => None end) s2 s4 s5); eauto.
  - rewrite T2; reflexivity.
  - intros x Hx. rewrite T2 in Hx. change (In x (Ents (set_event (hptr e) ev1 s))) in Hx.
    apply in_set_event in Hx; [|apply (v_tbl _ I)|auto]. destruct Hx as [->|Hx]; [left; eauto|auto].
  - rewrite W. destruct (waiting (hkey e) (log s)) as [[[b ms] once]|]; auto.
Qed.

Lemma next_acts_same : forall s acts s3, next_acts s = (acts, s3) ->
  tbl s3 = tbl s /\ evIdx s3 = evIdx s /\ passes s3 = passes s /\ log s3 = log s /\ now s3 = now s /\ hdlId s3 = hdlId s.
Proof. intros s acts s3 H. unfold next_acts in H. destruct (script s); injection H as <- <-; auto 10. Qed.

Lemma after_log : forall c p s4 s5, after_call c p s4 = Ok s5 -> log s5 = log s4.
Proof.
  intros c p s4 s5 EA. unfold after_call in EA. destruct (at_ptr p s4) as [e4|]; [|discriminate].
  destruct (hdata e4) as [ev4|]; [|discriminate].
  destruct (eonce _); [|injection EA as <-; reflexivity].
  unfold event_free in EA. destruct (entry_delete _ _ _); cbn [of_opt rbind] in EA; [|discriminate].
  injection EA as <-. reflexivity.
Qed.

Lemma all_ok : forall f,
  (forall m c ni n cnt hs s x s', walk f m c ni n cnt hs s = Ok (x, s') ->
     Inv s -> ctx c ni n s -> few s' -> Inv s' /\ R s s') /\
  (forall acts s s', run_acts f acts s = Ok s' -> Inv s -> few s' -> Inv s' /\ R s s') /\
  (forall m s x s', process f m s = Ok (x, s') -> Inv s -> few s' -> Inv s' /\ R s s') /\
  (forall mt st0 sl s s', update f mt st0 sl s = Ok s' -> Inv s -> few s' -> Inv s' /\ R s s').
Proof.
  induction f as [|f (IHw & IHr & IHp & IHu)].
  { repeat split; discriminate. }
  destruct (grows_all f) as (Gw & Gr & Gp & Gu).
  split; [|split; [|split]].
  - intros m c ni n cnt hs s x s' H I C HF. cbn [walk] in H.
    destruct (hash_next (tbl s) hs) as [|e hs'|] eqn:HN; [injection H as <- <-; split; [auto|now apply R_refl]| |discriminate].
    apply next_in in HN. change (In e (Ents s)) in HN.
    destruct (hdata e) as [ev|] eqn:Hd; [|eauto].
    destruct (ni <? wrap32 (hkey e)) eqn:Hni; [eauto|].
    match type of H with (if ?b then _ else _) = _ => destruct b eqn:HD end; [eauto|].
    set (timer := match ekind ev with KTimer => true | KAlways => false end) in *.
    set (ev1 := if timer then counted ev else ev) in *.
    assert (Q : ekind ev1 = ekind ev /\ eonce ev1 = eonce ev /\ einitial ev1 = einitial ev /\ ebusy ev1 = ebusy ev /\ ewsec ev1 = ewsec ev /\ ewms ev1 = ewms ev)
      by (unfold ev1; destruct timer; auto 10).
    destruct Q as (Q1 & Q2 & Q3 & Q4 & Q5 & Q6).
    pose proof (v_ent _ I) as FE. rewrite Forall_forall in FE. destruct (FE e HN) as (ev' & D1 & D2 & D3 & D4).
    assert (ev' = ev) by congruence. subst ev'.
    assert (Hfew : few s).
    { destruct (ebusy ev1); [exact (few_back _ _ (Gw _ _ _ _ _ _ _ _ _ H) HF)|].
      destruct (grows_all (S f)) as (Gw' & _). eapply few_back; [|exact HF].
      revert H. match goal with |- (let '(_, _) := next_acts ?s2 in _) = _ -> _ => destruct (next_acts s2) as [acts s3] eqn:NA end.
      intros H. apply next_acts_same in NA. destruct NA as (_ & _ & _ & NL & _).
      destruct (run_acts f acts s3) as [s4| |] eqn:ER; cbn [rbind] in H; try discriminate.
      destruct (after_call c (hptr e) s4) as [s5| |] eqn:EA; cbn [rbind] in H; try discriminate.
      pose proof (after_log _ _ _ _ EA) as G5.
      eapply grows_trans; [eapply grows_cons; exact NL|]. eapply grows_trans; [exact (Gr _ _ _ ER)|].
      eapply grows_trans; [apply grows_same; exact G5|].
      destruct ((0 <=? m) && _); [injection H as <- <-; apply grows_refl|eauto]. }
    assert (Hk : hkey e <= ni).
    { pose proof (key_range s e I HN). pose proof (v_idx _ I). unfold few in Hfew.
      apply Z.ltb_ge in Hni. rewrite wrap32_id in Hni by lia. exact Hni. }
    assert (OK1 : entry_ok (log s) (mkH (hptr e) (hkey e) (hval e) (Some ev1))).
    { exists ev1. cbn [hdata hkey]. split; auto. split; auto. split; auto.
      destruct (waiting (hkey e) (log s)) as [[[b ms] once]|]; rewrite ?Q1, ?Q2, ?Q3, ?Q4, ?Q5, ?Q6; auto. }
    assert (I1 : Inv (set_event (hptr e) ev1 s)) by (apply Inv_set_event; auto).
    destruct (ebusy ev1) eqn:HB.
    + assert (R1 : R s (set_event (hptr e) ev1 s)).
      { constructor; cbn [set_event with_tbl evIdx log tbl]; try lia.
        - exists []. split; [auto|constructor].
        - simpl. lia.
        - intros y Hy. change (In y (Ents (set_event (hptr e) ev1 s))) in Hy. apply in_set_event in Hy; [|apply (v_tbl _ I)|auto].
          right. destruct Hy as [->|(Hy & _)].
          + exists e. split; auto. repeat split; auto. exists ev, ev1. repeat split; auto. congruence.
          + exists y. split; auto. apply kept_refl; auto. }
      destruct (IHw _ _ _ _ _ _ _ _ _ H I1 (ctx_R _ _ _ _ _ C R1) HF) as [A B]. split; auto. eapply R_trans; eauto.
    + revert H. match goal with |- (let '(_, _) := next_acts ?z in _) = _ -> _ => destruct (next_acts z) as [acts s3] eqn:NA end.
      intros H. apply next_acts_same in NA. destruct NA as (N1 & N2 & N3 & N4 & _).
      destruct (run_acts f acts s3) as [s4| |] eqn:ER; cbn [rbind] in H; try discriminate.
      destruct (after_call c (hptr e) s4) as [s5| |] eqn:EA; cbn [rbind] in H; try discriminate.
      assert (TS : tbl s3 = value_set (hptr e) (Some (with_busy true ev1)) (tbl s)).
      { rewrite N1. apply value_set_twice. }
      destruct (call_ok c ni n s e ev (with_busy true ev1) I C HN Hd Hk) with (s2 := s3) as (I3 & AFT); auto; try congruence.
      { intros E. unfold timer in *. rewrite E in HD. exact HD. }
      pose proof (after_log _ _ _ _ EA) as G5.
      assert (G5' : grows s5 s').
      { destruct ((0 <=? m) && _); [injection H as <- <-; apply grows_refl|eauto]. }
      assert (F5 : few s5) by (eapply few_back; eauto).
      assert (F4 : few s4) by (unfold few in *; congruence).
      destruct (IHr _ _ _ ER I3 F4) as [I4 R4].
      destruct (AFT s4 s5 I4 R4 EA) as [I5 R5].
      destruct ((0 <=? m) && _).
      * injection H as <- <-. auto.
      * destruct (IHw _ _ _ _ _ _ _ _ _ H I5 (ctx_R _ _ _ _ _ C R5) HF) as [A B]. split; auto. eapply R_trans; eauto.
  - intros acts s s' H I HF. cbn [run_acts] in H. destruct acts as [|a r]; [injection H as <-; split; [auto|now apply R_refl]|].
    match type of H with rbind ?x _ = _ => destruct x as [s1| |] eqn:E1 end; cbn [rbind] in H; try discriminate.
    assert (F1 : few s1) by (eapply few_back; eauto).
    enough (X : Inv s1 /\ R s s1).
    { destruct X as [I1 R1]. destruct (IHr _ _ _ H I1 HF) as [A B]. split; auto. eapply R_trans; eauto. }
    assert (HB : forall e s2, fresh_entry f s = Ok (e, s2) -> grows s2 s1 -> evIdx s + 1 < 2 ^ 64).
    { intros e s2 F G. apply fresh_log in F. pose proof (few_back _ _ G F1) as F2. unfold few in F2. rewrite F in F2.
      rewrite (v_idx _ I). lia. }
    destruct a as [d|ms once|id| | |m|mt sl].
    + injection E1 as <-. split; [eapply Inv_ext; [..|exact I]; auto|apply R_ext; auto].
    + unfold interval_timer in E1. destruct (fresh_entry f s) as [[e s2]| |] eqn:F; cbn [rbind] in E1; try discriminate.
      destruct (due_at _ _) as [ws wm] eqn:DU. injection E1 as <-.
      assert (HB' : evIdx s + 1 < 2 ^ 64) by (eapply HB; [reflexivity|eapply grows_cons; reflexivity]).
      destruct (fresh_ok _ _ _ _ I HB' F) as (A1 & A2 & A3 & _ & _ & _ & _ & A8 & _).
      eapply (create_ok f s e s2 (OSet (hkey e) ms once (now s2))); [exact I|exact HB'|exact F|simpl; congruence| |reflexivity..].
      left. exists ms, once, (now s2). rewrite A2. split; auto. split; [reflexivity|]. split; [reflexivity|].
      cbn [einitial ebusy ewsec ewms]. split; [destruct (ms <? 0) eqn:M; b2p; lia|]. split; auto.
    + eapply clear_ok; eauto.
    + unfold add_handler in E1. destruct (negb _); [injection E1 as <-; split; [auto|now apply R_refl]|].
      destruct (fresh_entry f s) as [[e s2]| |] eqn:F; cbn [rbind] in E1; try discriminate.
      injection E1 as <-.
      assert (HB' : evIdx s + 1 < 2 ^ 64) by (eapply HB; [reflexivity|eapply grows_cons; reflexivity]).
      destruct (fresh_ok _ _ _ _ I HB' F) as (A1 & A2 & A3 & _ & _ & _ & _ & A8 & _).
      eapply (create_ok f s e s2 (ONew (hkey e)) (mkEv KAlways false 0 0 0 false 0)); [exact I|exact HB'|exact F|simpl; congruence| |reflexivity..].
      right. rewrite A2. auto.
    + unfold event_new in E1. destruct (fresh_entry f s) as [[e s2]| |] eqn:F; cbn [rbind] in E1; try discriminate.
      injection E1 as <-.
      assert (HB' : evIdx s + 1 < 2 ^ 64) by (eapply HB; [reflexivity|eapply grows_cons; reflexivity]).
      destruct (fresh_ok _ _ _ _ I HB' F) as (A1 & A2 & A3 & _ & _ & _ & _ & A8 & _).
      eapply (create_ok f s e s2 (ONew (hkey e)) (mkEv KTimer false 0 0 0 false 0)); [exact I|exact HB'|exact F|simpl; congruence| |reflexivity..].
      right. rewrite A2. auto.
    + destruct (process f m s) as [[x s2]| |] eqn:EP; cbn [rbind] in E1; try discriminate.
      injection E1 as <-. eauto.
    + eauto.
  - intros m s x s' H I HF. cbn [process] in H.
    set (s1 := mkSt (tbl s) (evIdx s) (hdlId s) (now s) (script s) (passes s + 1) (OPass (passes s) (now s) :: log s)) in *.
    assert (HI : 0 <= evIdx s < 2 ^ 31).
    { pose proof (few_back _ _ (grows_trans _ _ _ (grows_cons s s1 _ eq_refl) (Gw _ _ _ _ _ _ _ _ _ H)) HF) as F.
      unfold few in F. rewrite (v_idx _ I). lia. }
    assert (I1 : Inv s1).
    { assert (X : Inv (logging (OPass (passes s) (now s)) (mkSt (tbl s) (evIdx s) (hdlId s) (now s) (script s) (passes s + 1) (log s)))).
      { apply Inv_logging; auto.
        - destruct I as [a1 a2 a3 a4 a5 a6 a7 a8 a9]. constructor; cbn [tbl evIdx log passes]; auto.
          intros n t J. apply a6 in J. lia.
        - cbn [obs_ok log]. intros n' t' J. eapply (v_pass _ I); eauto.
        - intros n t E. injection E as <- <-. simpl. lia. }
      exact X. }
    assert (R1 : R s s1).
    { pose proof (R_logging s (OPass (passes s) (now s)) I eq_refl) as X. destruct X as [a b c d]. constructor; auto. }
    rewrite wrap32_id in H by lia.
    assert (C1 : ctx (now s) (evIdx s) (passes s) s1).
    { split; [simpl; lia|]. exists [], (log s). split; [reflexivity|constructor]. }
    destruct (IHw _ _ _ _ _ _ _ _ _ H I1 C1 HF) as [A B]. split; auto. eapply R_trans; eauto.
  - intros mt st0 sl s s' H I HF. cbn [update] in H.
    destruct (process f (-1) s) as [[x s1]| |] eqn:EP; cbn [rbind] in H; try discriminate.
    assert (G1 : grows s1 s').
    { destruct (mt =? 0); [injection H as <-; apply grows_refl|].
      destruct (_ && _); [injection H as <-; eapply grows_cons; reflexivity|].
      destruct sl; [injection H as <-; apply grows_refl|]. apply Gu in H. exact H. }
    destruct (IHp _ _ _ _ EP I (few_back _ _ G1 HF)) as [I1 R1].
    destruct (mt =? 0); [injection H as <-; auto|].
    destruct ((0 <? mt) && (mt <=? diftime st0 (now s1))) eqn:HT.
    + injection H as <-. split; [|eapply R_trans; [exact R1|now apply R_logging]].
      apply Inv_logging; auto; [|discriminate]. cbn [obs_ok]. apply andb_true_iff in HT. destruct HT as [H1 H2]. b2p.
      unfold diftime in H2. unfold sec, msec in *.
      pose proof (Z.div_mod st0 1000 ltac:(lia)). pose proof (Z.mod_pos_bound st0 1000 ltac:(lia)).
      pose proof (Z.div_mod (now s1) 1000 ltac:(lia)). pose proof (Z.mod_pos_bound (now s1) 1000 ltac:(lia)).
      destruct (now s1 / 1000 =? st0 / 1000) eqn:E; b2p; lia.
    + destruct sl as [|d r]; [injection H as <-; auto|].
      set (s2 := mkSt (tbl s1) (evIdx s1) (hdlId s1) (now s1 + d) (script s1) (passes s1) (log s1)) in *.
      assert (I2 : Inv s2) by (eapply Inv_ext; [..|exact I1]; auto).
      destruct (IHu _ _ _ _ _ H I2 HF) as [A B]. split; auto.
      eapply R_trans; [exact R1|]. eapply R_trans; [|exact B]. apply R_ext; auto.
Qed.

Lemma Inv_0 : forall t sc, Inv (st0 t sc).
Proof.
  intros t sc. constructor; cbn [st0 tbl evIdx log passes ids];
    [apply inv_new|reflexivity|constructor|constructor|exact I|intros n t' []|intros id n t' []|intros id []|].
  intros id (b & ms & once & H & _). discriminate.
Qed.
