(** Theorems about the linked-list API (C26). *)
From Coq Require Import ZArith List Bool Lia.
Import ListNotations.
From Verif Require Import Bits LimitModel EventProofs4 ListModel ListSpec ListProofs ListProofs2 ListProofs3 ListProofs4.
Local Open Scope Z_scope.

Section L.
Variable V : Type.
Notation en := (en V). Notation li := (li V).

Lemma rep_start : Rep V (empty_heap V) (start V).
Proof.
  constructor; unfold start; cbn [seq value home placed]; try discriminate.
  intros a. reflexivity.
Qed.

Lemma call_ok : forall c h s r, Rep V h s -> legal V c s -> answers V c s r ->
  exists h' f0, (forall fuel, (f0 <= fuel)%nat -> do_call V fuel c h = Some (r, h')) /\ Rep V h' (after V c s).
Proof.
  intros c h s r R L A. destruct c as [l|a l v b|l a b|l a|a|l|l|a v|l|l|l|a]; cbn [legal answers do_call] in *.
  - subst r. exists (list_new V l h), 0%nat. split; auto. cbn [after]. constructor; cbn [seq value home placed].
    + intros l' q' S. destruct (Z.eq_dec l' l) as [->|N].
      * rewrite set_same in S. injection S as <-. unfold list_new. look. eexists. split; [reflexivity|]. cbn. repeat split; auto.
      * rewrite set_other in S by auto. unfold list_new. look. destruct (r_list _ _ _ R _ _ S) as (x & B & B1 & B2 & B3 & B4).
        exists x. repeat split; auto. rewrite set_other by auto. eapply chain_frame; [|exact B4]. reflexivity.
    + intros l' q' S. destruct (Z.eq_dec l' l) as [->|N]; [rewrite set_same in S; injection S as <-; constructor|].
      rewrite set_other in S by auto. eapply r_nodup; eauto.
    + intros l' q' y S I. destruct (Z.eq_dec l' l) as [->|N]; [rewrite set_same in S; injection S as <-; destruct I|].
      rewrite set_other in S by auto. eapply r_home; eauto.
    + intros y. pose proof (r_val _ _ _ R y) as RV. unfold list_new. look. destruct (value s y); auto.
      destruct RV as (e & B1 & B2 & B3 & B4). exists e. split; auto. split; auto. split; auto. intros H. apply B4.
      intros l' q' S'. destruct (Z.eq_dec l' l) as [->|N]; [congruence|apply (H l' q'); now rewrite set_other].
  - subst r. destruct L as (L1 & L2 & L3). destruct (rep_entry_new V h s a l v b R L1 L2 L3) as (h' & E & R').
    exists h', 0%nat. rewrite E. auto.
  - subst r. destruct L as (L1 & L2 & L3 & L4). destruct (rep_push V h s l a b R L1 L2 L3 L4) as (h' & E & R').
    exists h', 0%nat. rewrite E. auto.
  - subst r. destruct (rep_take_out V h s l a R L) as (h' & E & R'). exists h', 0%nat. rewrite E. auto.
  - subst r. destruct L as (L1 & L2). destruct (rep_entry_delete V h s a R L1 L2) as (h' & E & R'). exists h', 0%nat. rewrite E. auto.
  - subst r. destruct (rep_clear V h s l R L) as (h' & E & R'). exists h', (S (length (contents V s l))). split; auto.
    intros fuel F. rewrite E; auto.
  - subst r. destruct (rep_list_delete V h s l R L) as (h' & E & R'). exists h', (S (length (contents V s l))). split; auto.
    intros fuel F. rewrite E; auto.
  - subst r. pose proof (r_val _ _ _ R a) as RV. destruct (value s a) as [v0|] eqn:EV; [|congruence].
    destruct RV as (e & B1 & B2 & B3 & B4). unfold value_set. rewrite B1. eexists. exists 0%nat. split; [reflexivity|].
    cbn [after]. set (h' := set_en V a _ h).
    assert (K : forall y, match en h y with None => en h' y = None
                 | Some e => exists e', en h' y = Some e' /\ nxt V e' = nxt V e /\ prv V e' = prv V e end).
    { intros y. unfold h'. destruct (Z.eq_dec y a) as [->|N].
      - rewrite B1, en_same. eexists. split; [reflexivity|]. auto.
      - rewrite en_other by auto. destruct (en h y); eauto. }
    assert (CH : forall q P n, chain V h P q n -> chain V h' P q n).
    { induction q as [|y q IH]; intros P n C; cbn [chain] in *; auto. destruct C as ((e1 & C1 & C2 & C3) & C4). split; auto.
      specialize (K y). rewrite C1 in K. destruct K as (e' & K1 & K2 & K3). exists e'. rewrite K2, K3. auto. }
    constructor; cbn [seq value home placed].
    + intros l q S. destruct (r_list _ _ _ R _ _ S) as (x & D & D1 & D2 & D3 & D4). exists x. repeat split; auto.
    + intros l q S. eapply r_nodup; eauto.
    + intros l q y S I. eapply r_home; eauto.
    + intros y. destruct (Z.eq_dec y a) as [->|N].
      * rewrite set_same. unfold h'. look. eexists. split; [reflexivity|]. cbn. auto.
      * rewrite set_other by auto. unfold h'. rewrite en_other by auto. apply (r_val _ _ _ R).
  - subst r. unfold list_size, contents. destruct (seq s l) as [q|] eqn:S; [|congruence].
    destruct (r_list _ _ _ R _ _ S) as (x & D & D1 & D2 & D3 & D4). rewrite D. exists h, 0%nat. split; auto.
    intros _ _. rewrite D1. do 3 f_equal. unfold wrap32. clear. set (n := Z.of_nat (length q)). clearbody n.
    rewrite Zminus_mod_idemp_l. f_equal. lia.
  - subst r. unfold get_front, contents. destruct (seq s l) as [q|] eqn:S; [|congruence].
    destruct (r_list _ _ _ R _ _ S) as (x & D & D1 & D2 & D3 & D4). rewrite D, D2. exists h, 0%nat. auto.
  - subst r. unfold get_back, contents in *. destruct (seq s l) as [q|] eqn:S; [|congruence].
    destruct (r_list _ _ _ R _ _ S) as (x & D & D1 & D2 & D3 & D4). rewrite D, D3 by auto. exists h, 0%nat. auto.
  - destruct A as (v & A & ->). unfold value_get. pose proof (r_val _ _ _ R a) as RV. rewrite A in RV.
    destruct RV as (e & B1 & B2 & B3 & B4). rewrite B1, B2. exists h, 0%nat. auto.
Qed.

Lemma calls_ok : forall cs rs s s', history V cs rs s s' -> forall h, Rep V h s ->
  exists h' f0, (forall fuel, (f0 <= fuel)%nat -> calls V fuel cs h = Some (rs, h')) /\ Rep V h' s'.
Proof.
  intros cs rs s s' H. induction H as [s|c cs r rs s s' L A H IH]; intros h R.
  - exists h, 0%nat. split; auto.
  - destruct (call_ok c h s r R L A) as (h1 & f1 & E1 & R1). destruct (IH h1 R1) as (h2 & f2 & E2 & R2).
    exists h2, (Nat.max f1 f2). split; auto. intros fuel F. cbn [calls]. rewrite E1 by lia. cbn [snd]. rewrite E2 by lia. reflexivity.
Qed.

(** The searches. *)
Lemma forward_ok : forall h q P, chain V h P q None -> exists r, search_step V false (hd_error q) h = Some r /\ visits V false h r q.
Proof.
  induction q as [|a q IH]; intros P C; cbn [hd_error search_step].
  - exists (None, None). split; auto. constructor.
  - cbn [chain] in C. destruct C as ((e & E & _ & EN) & C). rewrite E. eexists. split; [reflexivity|].
    destruct (IH _ C) as (r & R1 & R2). apply visits_next with (r := r); auto. rewrite EN. destruct q; auto.
Qed.
Lemma backward_ok : forall h q (P : option Z -> Prop) n, (forall p, P p -> p = None) -> chain V h P q n ->
  exists r, search_step V true (last_of q) h = Some r /\ visits V true h r (rev q).
Proof.
  intros h q. induction q as [|a q IH] using rev_ind; intros P n HP C.
  - exists (None, None). split; auto. constructor.
  - rewrite last_of_snoc, rev_app_distr. cbn [rev app]. apply chain_app in C. destruct C as [C1 C2]. cbn [chain] in C2.
    destruct C2 as ((e & E & EP & _) & _). cbn [search_step]. rewrite E. eexists. split; [reflexivity|].
    destruct (IH P _ HP C1) as (r & R1 & R2). apply visits_next with (r := r); auto.
    replace (prv V e) with (last_of q); auto. unfold link_of in EP. destruct (last_of q); auto. symmetry. auto.
Qed.

(** For every legal history of calls on any number of lists, from the beginning: no dead or null
    pointer is used, every call answers as for sequences of entries, and afterwards every list is
    searched forwards from its first to its last entry -- and backwards, if its front entry was
    put there rather than left there by the removal of its predecessor. *)
Theorem lists_are_sequences : forall cs rs s, history V cs rs (start V) s ->
  exists h f0, (forall fuel, (f0 <= fuel)%nat -> calls V fuel cs (empty_heap V) = Some (rs, h)) /\
    forall l q, seq s l = Some q ->
      (exists r, search_first V false l h = Some r /\ visits V false h r q) /\
      (q <> [] -> placed s l = true -> exists r, search_first V true l h = Some r /\ visits V true h r (rev q)).
Proof.
  intros cs rs s H. destruct (calls_ok cs rs (start V) s H _ rep_start) as (h & f0 & E & R). exists h, f0. split; auto.
  intros l q S. destruct (r_list _ _ _ R _ _ S) as (x & D & D1 & D2 & D3 & D4). unfold search_first. rewrite D. split.
  - rewrite D2. eapply forward_ok; eauto.
  - intros NE PL. rewrite D3 by auto. eapply backward_ok; [|exact D4]. rewrite PL. unfold prv_ok. auto.
Qed.

Lemma visits_fun : forall back h r l1, visits V back h r l1 -> forall l2, visits V back h r l2 -> l1 = l2.
Proof.
  intros back h r l1 H. induction H as [p|a p r l1 E H IH]; intros l2 K; inversion K; subst; auto.
  f_equal. apply IH. congruence.
Qed.
(** The searches return nothing else. *)
Theorem search_returns_one_sequence : forall back h r l1 l2, visits V back h r l1 -> visits V back h r l2 -> l1 = l2.
Proof. intros. eapply visits_fun; eauto. Qed.
End L.

(** ** What does not hold *)

(** Deleting the only entry of a list leaves the list pointing to freed memory: the size is still
    1, the front is the dead entry, and adding an entry uses it. *)
Theorem delete_only_entry_refuted : forall fuel,
  let h := [ListNew Z 1; EntryNew Z 10 1 7 None; EntryDelete Z 10] in
  (exists w, calls Z fuel (h ++ [Size Z 1; Front Z 1]) (empty_heap Z) = Some ([AUnit Z; AUnit Z; AUnit Z; ANum Z 1; AEntry Z (Some 10)], w)
     /\ en Z w 10 = None) /\
  calls Z fuel (h ++ [EntryNew Z 11 1 8 None]) (empty_heap Z) = None.
Proof. intros fuel h. split; [eexists; split; [cbn; reflexivity|reflexivity]|reflexivity]. Qed.

(** After Jsi_ListClear, Jsi_ListGetBack returns a freed entry. *)
Theorem back_after_clear_refuted : forall fuel, exists w,
  calls Z (3 + fuel) [ListNew Z 1; EntryNew Z 10 1 7 None; Clear Z 1; Back Z 1] (empty_heap Z) =
    Some ([AUnit Z; AUnit Z; AUnit Z; AEntry Z (Some 10)], w) /\ en Z w 10 = None.
Proof. intros fuel. eexists. split; [cbn; reflexivity|reflexivity]. Qed.

(** After the front entry is removed, a backward search goes on into it: it uses freed memory if
    the entry was deleted, and never ends if it was pushed to the back. *)
Theorem backward_search_refuted : forall fuel,
  (exists rs w r, calls Z fuel [ListNew Z 1; EntryNew Z 10 1 7 None; EntryNew Z 11 1 8 None; EntryDelete Z 10] (empty_heap Z) = Some (rs, w) /\
     search_first Z true 1 w = Some r /\ forall q, ~ visits Z true w r q) /\
  (exists rs w r, calls Z fuel [ListNew Z 1; EntryNew Z 10 1 7 None; EntryNew Z 11 1 8 None; Push Z 1 10 None] (empty_heap Z) = Some (rs, w) /\
     search_first Z false 1 w = Some (Some 11, Some 10) /\
     search_first Z true 1 w = Some r /\ forall q, ~ visits Z true w r q).
Proof.
  intros fuel. split.
  - eexists. eexists. eexists. split; [cbn; reflexivity|]. split; [reflexivity|]. intros q H.
    inversion H as [|a p r l E V1]; subst. vm_compute in E. discriminate.
  - eexists. eexists. eexists. split; [cbn; reflexivity|]. split; [reflexivity|]. split; [reflexivity|].
    match goal with |- forall q, ~ visits _ _ ?h0 _ _ => set (w := h0) end.
    assert (X : forall q r, visits Z true w r q -> r = (Some 10, Some 11) \/ r = (Some 11, Some 10) -> False).
    { intros q r H. induction H as [p|a p r l E V1 IH]; intros [D|D]; try discriminate; injection D as -> ->;
        vm_compute in E; injection E as <-; apply IH; auto. }
    intros q H. eapply X; [exact H|]. vm_compute. auto.
Qed.

(** Jsi_ListPushFront of the entry that is at the front already follows a null pointer. *)
Theorem push_front_again_refuted : forall fuel,
  calls Z fuel [ListNew Z 1; EntryNew Z 10 1 7 None; EntryNew Z 11 1 8 None; Push Z 1 10 (Some 10)] (empty_heap Z) = None.
Proof. reflexivity. Qed.

(** Pushing an entry that was popped from a list deleted since reads the freed list. *)
Theorem push_after_list_delete_refuted : forall fuel,
  calls Z (3 + fuel) [ListNew Z 1; EntryNew Z 10 1 7 None; EntryNew Z 11 1 8 None; Pop Z 1 10; ListDelete Z 1; ListNew Z 2; Push Z 2 10 None]
    (empty_heap Z) = None.
Proof. reflexivity. Qed.

(** ** The hypotheses are met *)
(** Two lists; insertion at both ends and in the middle, moving between lists, removal at both
    ends and in the middle, clearing, reuse of an address. *)
Example history_example : exists rs s,
  history Z [ListNew Z 1; ListNew Z 2; EntryNew Z 10 1 70 None; EntryNew Z 11 1 71 None; EntryNew Z 12 1 72 (Some 10);
             EntryNew Z 13 1 73 (Some 11); Push Z 2 10 None; Push Z 1 11 (Some 12); Size Z 1; Front Z 1; Back Z 1;
             EntryDelete Z 13; EntryNew Z 13 2 5 None; Pop Z 2 13; Push Z 1 13 None; ValueSet Z 12 9; ValueGet Z 12; Clear Z 2; Size Z 2]
    rs (start Z) s /\ seq s 1 = Some [11; 12; 13] /\ placed s 1 = true /\
  nth 8 rs (AUnit Z) = ANum Z 3 /\ nth 16 rs (AUnit Z) = AVal Z 9.
Proof.
  eexists. eexists. split.
  - repeat (eapply h_cons; [vm_compute; repeat split; auto; try discriminate; try (intros; discriminate); tauto
                           |cbn [answers]; first [reflexivity|eexists; split; reflexivity]|]).
    apply h_nil.
  - vm_compute. auto.
Qed.

Print Assumptions lists_are_sequences.
Print Assumptions search_returns_one_sequence.
Print Assumptions backward_search_refuted.
