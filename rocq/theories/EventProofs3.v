(** Creating and clearing events; running a callback. *)
From Coq Require Import ZArith List Bool Lia Permutation.
Import ListNotations.
From Verif Require Import TreeModel TreeSpec HashModel HashSpec HashProofs HashProps Bits LimitModel EventModel EventSpec EventProofs EventProofs2.
Local Open Scope Z_scope.

Lemma key_in_ids : forall s e, Inv s -> In e (Ents s) -> In (hkey e) (ids (log s)).
Proof.
  intros s e I He. pose proof (v_ent _ I) as F. rewrite Forall_forall in F.
  destruct (F e He) as (ev & _ & H & _). auto.
Qed.
Lemma key_range : forall s e, Inv s -> In e (Ents s) -> 1 <= hkey e <= evIdx s.
Proof.
  intros s e I He. pose proof (v_ids _ I) as F. rewrite Forall_forall in F. apply F. eapply key_in_ids; eauto.
Qed.

Lemma fresh_ok : forall f s e s1, Inv s -> evIdx s + 1 < 2 ^ 64 -> fresh_entry f s = Ok (e, s1) ->
  hinv (tbl s1) /\ hkey e = evIdx s + 1 /\ evIdx s1 = evIdx s + 1 /\ hdata e = None /\
  Permutation (Ents s1) (e :: Ents s) /\ hptr e = nextp (tbl s) /\ nextp (tbl s1) = S (nextp (tbl s)) /\
  now s1 = now s /\ log s1 = log s /\ passes s1 = passes s /\ hdlId s1 = hdlId s /\ script s1 = script s.
Proof.
  intros [|f] s e s1 I HB H; cbn [fresh_entry] in H; [discriminate|].
  destruct (hash_entry_new oneword_kind (evIdx s + 1) (tbl s)) as [[[e0 nw] t]|] eqn:HN; cbn [of_opt rbind] in H; [|discriminate].
  assert (Pk : PK (evIdx s + 1)) by (unfold PK; pose proof (v_idx _ I); lia).
  destruct (entry_new_ok PK oneword_kind GK _ _ _ _ _ (v_tbl _ I) Pk HN) as (A & B & C & D).
  destruct nw.
  - injection H as <- <-. simpl. destruct D as (D1 & D2 & D3 & D4 & D5 & D6).
    repeat (split; [first [exact D2|auto]|]); auto.
  - exfalso. destruct D as [_ D]. apply key_range in D; auto. lia.
Qed.

Lemma create_ok : forall f s e s1 o ev, Inv s -> evIdx s + 1 < 2 ^ 64 -> fresh_entry f s = Ok (e, s1) ->
  about o = Some (evIdx s + 1) ->
  ((exists ms once t, o = OSet (evIdx s + 1) ms once t /\
      ekind ev = KTimer /\ eonce ev = once /\ einitial ev = Z.max 0 ms /\ ebusy ev = false /\
      (ewsec ev, ewms ev) = due_at t (einitial ev)) \/
   (o = ONew (evIdx s + 1) /\ eonce ev = false /\ ebusy ev = false)) ->
  forall s2, tbl s2 = tbl (set_event (hptr e) ev s1) -> evIdx s2 = evIdx s1 -> passes s2 = passes s1 ->
    log s2 = o :: log s1 ->
  Inv s2 /\ R s s2.
Proof.
  intros f s e s1 o ev I HB HF HA HO s2 T2 E2 P2 L2.
  destruct (fresh_ok _ _ _ _ I HB HF) as (F1 & F2 & F3 & F4 & F5 & F6 & F7 & F8 & F9 & F10 & _).
  pose proof (fun x Hx => key_range s x I Hx) as KR.
  pose proof (v_ids _ I) as IB. rewrite Forall_forall in IB.
  assert (HE1 : In e (Ents s1)) by (eapply Permutation_in; [symmetry; exact F5|left; auto]).
  assert (EI : ids (o :: log s) = (evIdx s + 1) :: ids (log s)).
  { destruct HO as [(ms & once & t & -> & _)|(-> & _)]; reflexivity. }
  assert (OLD : forall x, In x (Ents s1) -> x <> e -> In x (Ents s)).
  { intros x Hx N. eapply Permutation_in in Hx; [|exact F5]. destruct Hx; [congruence|auto]. }
  assert (NW : ~ In (evIdx s + 1) (ids (log s))) by (intros J; apply IB in J; lia).
  assert (NR : ~ ran (evIdx s + 1) (log s)).
  { intros (n & t & J). apply NW. eapply (v_run _ I); eauto. }
  assert (NC : ~ In (OClear (evIdx s + 1)) (log s)).
  { intros J. apply NW. eapply (v_clr _ I); eauto. }
  assert (CASE : forall x, In x (Ents s2) ->
     x = mkH (hptr e) (hkey e) (hval e) (Some ev) \/ (In x (Ents s) /\ hkey x <> evIdx s + 1)).
  { intros x Hx. rewrite T2 in Hx. apply in_set_event in Hx; auto.
    destruct Hx as [->|(Hx & N1 & N2)]; [auto|right]. split; [|congruence]. apply OLD; auto. congruence. }
  split.
  - constructor.
    + rewrite T2. simpl. now apply inv_value_set.
    + rewrite E2, F3, L2, F9, EI. cbn [length]. pose proof (v_idx _ I). lia.
    + rewrite E2, F3, L2, F9, EI. constructor; [pose proof (v_idx _ I); lia|].
      rewrite Forall_forall. intros k Hk. apply IB in Hk. lia.
    + rewrite Forall_forall. intros x Hx. rewrite L2, F9. destruct (CASE x Hx) as [->|(Hx' & N)].
      * exists ev. cbn [hdata hkey]. rewrite F2, EI. split; auto. split; [left; auto|].
        split. { intros [E|J]; [|tauto]. destruct HO as [(ms & once & t & -> & _)|(-> & _)]; discriminate. }
        destruct HO as [(ms & once & t & -> & H1 & H2 & H3 & H4 & H5)|(-> & H1 & _)].
        -- cbn [waiting]. rewrite Z.eqb_refl. split; auto. split; auto. split; auto. split; [intros _; auto|].
           intros _ _ (n & t' & [J|J]); [discriminate|]. apply NR. exists n, t'. auto.
        -- cbn [waiting]. destruct (waiting (evIdx s + 1) (log s)) eqn:W; auto. exfalso. apply NW.
           eapply waiting_in; eauto.
      * apply entry_ok_other; [rewrite HA; congruence|]. pose proof (v_ent _ I) as F. rewrite Forall_forall in F; auto.
    + rewrite L2, F9. cbn [log_ok]. split; [|apply (v_log _ I)].
      assert (Forall (fun k => k < evIdx s + 1) (ids (log s))).
      { rewrite Forall_forall. intros k Hk. apply IB in Hk. lia. }
      destruct HO as [(ms & once & t & -> & _)|(-> & _)]; cbn [obs_ok]; auto.
    + rewrite L2, F9, P2, F10. intros n t [J|J]; [rewrite J in HA; discriminate|]. eapply (v_pass _ I); eauto.
    + rewrite L2, F9. intros id n t [J|J].
      * destruct HO as [(ms & once & t' & -> & _)|(-> & _)]; discriminate.
      * apply in_ids_cons. eapply (v_run _ I); eauto.
    + rewrite L2, F9. intros id [J|J].
      * destruct HO as [(ms & once & t' & -> & _)|(-> & _)]; discriminate.
      * apply in_ids_cons. eapply (v_clr _ I); eauto.
    + intros id. rewrite L2, F9. intros HP. rewrite T2, hkeys_set_event.
      eapply Permutation_in; [symmetry; apply Permutation_map; exact F5|]. simpl. rewrite F2.
      destruct (Z.eq_dec id (evIdx s + 1)) as [->|N]; [left; auto|right].
      rewrite pending_other in HP by (rewrite HA; congruence). apply (v_pend _ I); auto.
  - constructor.
    + exists [o]. rewrite L2, F9. split; auto.
      assert (ids [o] = [evIdx s + 1]) as -> by (destruct HO as [(ms & once & t & -> & _)|(-> & _)]; reflexivity).
      constructor; auto; lia.
    + rewrite E2; lia.
    + rewrite T2. simpl. lia.
    + intros x Hx. destruct (CASE x Hx) as [->|(Hx' & N)].
      * left. cbn [hptr hkey]. split; [lia|split; [lia|]]. intros ev' E. cbn [hdata] in E. injection E as <-.
        destruct HO as [(ms & once & t & _ & _ & _ & _ & H4 & _)|(_ & _ & H4)]; auto.
      * right. exists x. split; auto. pose proof (v_ent _ I) as F. rewrite Forall_forall in F.
        destruct (F x Hx') as (evx & D & _). repeat split; auto. exists evx, evx. repeat split; auto.
        intros _. rewrite L2, F9. apply waiting_other. rewrite HA. congruence.
Qed.

(** The deleted entry's data do not matter to Jsi_HashEntryDelete. *)
Lemma delete_data : forall (e e' : eentry) t, hptr e = hptr e' -> hval e = hval e' ->
  entry_delete oneword_kind e t = entry_delete oneword_kind e' t.
Proof. intros e e' t A B. unfold entry_delete. now rewrite A, B. Qed.

Lemma perm_rest : forall s t e x, hinv (tbl s) -> Permutation (Ents s) (e :: ents t) -> In x (ents t) ->
  In x (Ents s) /\ hkey x <> hkey e /\ hptr x <> hptr e.
Proof.
  intros s t e x I HP Hx. split; [eapply Permutation_in; [symmetry; exact HP|right; auto]|].
  pose proof (iv_keys _ _ _ I) as K. pose proof (iv_ptrs _ _ _ I) as Q.
  eapply Permutation_NoDup in K; [|apply Permutation_map; exact HP].
  eapply Permutation_NoDup in Q; [|apply Permutation_map; exact HP].
  simpl in *. inversion K; inversion Q; subst.
  split; intros E; [apply H1|apply H5]; rewrite <- E; now apply in_map.
Qed.

(** ** clearInterval *)
Lemma clear_ok : forall nid s s', Inv s -> clear_interval nid s = Ok s' -> Inv s' /\ R s s'.
Proof.
  intros nid s s' I H. unfold clear_interval in H. cbv zeta in H. 
  assert (Pk : PK (nid mod 2 ^ 64)) by (apply Z.mod_pos_bound; lia). set (id := nid mod 2 ^ 64) in *. clearbody id.
  destruct (negb (hdlId s =? 0) && _); [injection H as <-; split; auto; now apply R_refl|].
  destruct (hash_find oneword_kind id (tbl s)) as [e|] eqn:HF; [|injection H as <-; split; auto; now apply R_refl].
  apply (find_spec PK oneword_kind GK) in HF; [|apply (v_tbl _ I)|auto]. destruct HF as [He Hk].
  destruct (delete_ok PK oneword_kind GK (tbl s) e (v_tbl _ I) He) as (t' & D & I' & PE & _ & NP & _).
  rewrite D in H. cbn [of_opt rbind] in H. injection H as <-.
  pose proof (key_in_ids s e I He) as HI. rewrite Hk in HI.
  destruct I as [I1 I2 I3 I4 I5 I6 I7 I8 I9]. rewrite Forall_forall in I4.
  split.
  - constructor; cbn [logging with_tbl tbl evIdx log passes ids]; auto.
    + rewrite Forall_forall. intros x Hx. destruct (perm_rest s t' e x I1 PE Hx) as (A & B & _).
      apply entry_ok_other; [simpl; congruence|auto].
    + split; auto.
    + intros n t [J|J]; [discriminate|eauto].
    + intros k n t [J|J]; [discriminate|eauto].
    + intros k [J|J]; [injection J as <-; auto|eauto].
    + intros k HP. destruct (Z.eq_dec k id) as [->|N].
      * exfalso. destruct HP as (b & ms & once & _ & C & _). apply C. left; auto.
      * rewrite pending_other in HP by (simpl; congruence). apply I9 in HP.
        eapply Permutation_in in HP; [|apply Permutation_map; exact PE]. simpl in HP. destruct HP; [congruence|auto].
  - constructor; cbn [logging with_tbl tbl evIdx log passes]; try lia.
    + exists [OClear id]. split; auto. constructor.
    + intros x Hx. destruct (perm_rest s t' e x I1 PE Hx) as (A & B & _). right. exists x. split; auto.
      destruct (I4 x A) as (evx & E & _). repeat split; auto. exists evx, evx. repeat split; auto.

Qed.

(** ** Time *)
Lemma due_at_spec : forall b ms, 0 <= ms ->
  due_at b ms = (sec (b + ms), msec (b + ms)).
Proof.
  intros b ms H. unfold due_at, sec, msec.
  pose proof (Z.div_mod b 1000 ltac:(lia)). pose proof (Z.mod_pos_bound b 1000 ltac:(lia)).
  pose proof (Z.div_mod ms 1000 ltac:(lia)). pose proof (Z.mod_pos_bound ms 1000 ltac:(lia)).
  pose proof (Z.div_mod (b + ms) 1000 ltac:(lia)). pose proof (Z.mod_pos_bound (b + ms) 1000 ltac:(lia)).
  destruct (1000 <=? b mod 1000 + ms mod 1000) eqn:E; b2p; f_equal; lia.
Qed.
Lemma due_not_early : forall cur ev w, (ewsec ev, ewms ev) = (sec w, msec w) -> not_due cur ev = false ->
  w <= cur \/ w mod 1000 = 0 \/ 0 <= w < 1000.
Proof.
  intros cur ev w E H. injection E as E1 E2. unfold not_due in H. rewrite E1, E2 in H. unfold sec, msec in *.
  pose proof (Z.div_mod cur 1000 ltac:(lia)). pose proof (Z.mod_pos_bound cur 1000 ltac:(lia)).
  pose proof (Z.div_mod w 1000 ltac:(lia)). pose proof (Z.mod_pos_bound w 1000 ltac:(lia)).
  destruct (w / 1000 =? 0) eqn:Z1; [b2p; lia|]. destruct (w mod 1000 =? 0) eqn:Z2; [b2p; lia|].
  cbn [negb andb] in H. rewrite andb_true_r in H.
  destruct (cur / 1000 <=? w / 1000) eqn:Z3; [|b2p; lia]. cbn [andb] in H.
  destruct (cur / 1000 =? w / 1000) eqn:Z4; cbn [negb orb] in H; [|discriminate]. b2p. lia.
Qed.
Lemma due_when : forall cur ev w, (ewsec ev, ewms ev) = (sec w, msec w) -> w <= cur -> not_due cur ev = false.
Proof.
  intros cur ev w E H. injection E as E1 E2. unfold not_due. rewrite E1, E2. unfold sec, msec in *.
  pose proof (Z.div_mod cur 1000 ltac:(lia)). pose proof (Z.mod_pos_bound cur 1000 ltac:(lia)).
  pose proof (Z.div_mod w 1000 ltac:(lia)). pose proof (Z.mod_pos_bound w 1000 ltac:(lia)).
  pose proof (Z.div_le_mono w cur 1000 ltac:(lia) H).
  destruct (cur / 1000 <=? w / 1000) eqn:Z3; auto. cbn [andb].
  destruct (cur / 1000 =? w / 1000) eqn:Z4; cbn [negb orb andb]; b2p; [|lia].
  destruct (cur mod 1000 <? w mod 1000) eqn:Z5; auto. b2p. lia.
Qed.

(** ** Iteration returns live entries *)
Lemma chain_from_in : forall p (l : list eentry) e c, chain_from p l = Some (e :: c) -> In e l.
Proof.
  induction l as [|x l IH]; simpl; intros e c H; [discriminate|].
  destruct (Nat.eqb (hptr x) p); [injection H as -> _; auto|eauto].
Qed.
Lemma deref_in : forall p (bs : list (list eentry)) e c, deref p bs = Some (e :: c) -> In e (concat bs).
Proof.
  induction bs as [|b bs IH]; simpl; intros e c H; [discriminate|]. apply in_or_app.
  destruct (chain_from p b) as [c0|] eqn:E; [injection H as ->; left; eapply chain_from_in; eauto|right; eauto].
Qed.
Lemma scan_in : forall (bs : list (list eentry)) i e c n, scan bs i = (Some (e, c), n) -> In e (concat bs).
Proof.
  induction bs as [|[|x b] bs IH]; simpl; intros i e c n H; [discriminate|eauto|].
  injection H as -> _ _. auto.
Qed.
Lemma in_skipn : forall A n (l : list A) x, In x (skipn n l) -> In x l.
Proof. induction n; intros [|y l] x H; simpl in *; auto. Qed.
Lemma next_in : forall (t : etable) hs e hs', hash_next t hs = HEntry e hs' -> In e (ents t).
Proof.
  intros t hs e hs' H. unfold hash_next in H. destruct (nextEntry hs) as [p|].
  - destruct (deref p (buckets t)) as [[|e0 c]|] eqn:D; try discriminate. injection H as -> _.
    eapply deref_in; eauto.
  - destruct (scan (skipn (nextIndex hs) (buckets t)) (nextIndex hs)) as [[[e0 c]|] i] eqn:S1; [|discriminate].
    injection H as -> _. apply scan_in in S1. unfold ents. apply in_concat in S1. destruct S1 as (b & B1 & B2).
    apply in_concat. exists b. split; auto. eapply in_skipn; eauto.
Qed.
