(** The operations keep the representation. *)
From Coq Require Import ZArith List Bool Lia.
Import ListNotations.
From Verif Require Import Bits LimitModel EventProofs4 ListModel ListSpec ListProofs ListProofs2 ListProofs3.
Local Open Scope Z_scope.

Section L.
Variable V : Type.
Implicit Types (h : heap V) (s : state V) (q : list Z).
Notation en := (en V). Notation li := (li V). Notation nxt := (nxt V). Notation prv := (prv V). Notation own := (own V). Notation val := (val V).
Notation chain := (chain V). Notation keeps := (keeps V). Notation Rep := (Rep V).

Lemma set_same : forall A k (v : A) f, set k v f k = v.
Proof. intros. unfold set. now rewrite Z.eqb_refl. Qed.
Lemma set_other : forall A k (v : A) f x, x <> k -> set k v f x = f x.
Proof. intros. unfold set. now rewrite eqb_ne. Qed.

Lemma without_split : forall q1 a q2, NoDup (q1 ++ a :: q2) -> without a (q1 ++ a :: q2) = q1 ++ q2.
Proof.
  intros q1 a q2 H. apply NoDup_remove_2 in H. rewrite in_app_iff in H. unfold without. rewrite filter_app. cbn [filter].
  rewrite Z.eqb_refl. cbn [negb].
  assert (F : forall q, ~ In a q -> filter (fun x => negb (x =? a)) q = q).
  { induction q as [|x q IH]; intros N; auto. cbn [filter]. rewrite eqb_ne by (intros ->; apply N; left; auto). cbn [negb].
    rewrite IH; auto. intros J; apply N; right; auto. }
  rewrite !F by tauto. auto.
Qed.
Lemma front_split : forall q1 a q2, NoDup (q1 ++ a :: q2) -> is_front a (q1 ++ a :: q2) = match q1 with [] => true | _ => false end.
Proof.
  intros [|x q1] a q2 H; cbn [app is_front]; [apply Z.eqb_refl|]. apply eqb_ne. intros ->.
  cbn [app] in H. inversion H; subst. apply H2. rewrite in_app_iff. right. left. auto.
Qed.
Lemma contents_some : forall s l a, In a (contents V s l) -> exists q, seq s l = Some q /\ In a q.
Proof. unfold contents. intros s l a H. destruct (seq s l); [eauto|destruct H]. Qed.

(** Nothing of the list [l'] changes when the heap changes only outside it. *)
Lemma other_list : forall h h' s l l' q' P, seq s l' = Some q' -> l' <> l -> li h' l' = li h l' ->
  (forall y, In y q' -> en h' y = en h y) ->
  (exists x, li h l' = Some x /\ num x = wrap32 (Z.of_nat (length q')) /\ head x = hd_error q' /\
     (q' <> [] -> tail x = last_of q') /\ chain h P q' None) ->
  exists x, li h' l' = Some x /\ num x = wrap32 (Z.of_nat (length q')) /\ head x = hd_error q' /\
     (q' <> [] -> tail x = last_of q') /\ chain h' P q' None.
Proof.
  intros h h' s l l' q' P S N L E (x & A & B & C & D & F). exists x. rewrite L. repeat split; auto.
  eapply chain_frame; eauto.
Qed.

Lemma rep_take_out : forall h s l a, Rep h s -> In a (contents V s l) ->
  exists h', list_pop V l a h = Some h' /\ Rep h' (take_out V l a s).
Proof.
  intros h s l a R HI. destruct (contents_some s l a HI) as (q & S & I). apply in_split in I. destruct I as (q1 & q2 & ->).
  pose proof (r_nodup _ _ _ R _ _ S) as ND. destruct (r_list _ _ _ R _ _ S) as (x & X & XN & XH & XT & XC).
  destruct (pop_heap V h (prv_ok (placed s l)) l q1 a q2 x) as (h' & E & M); auto.
  { apply XT. destruct q1; discriminate. }
  exists h'. split; auto. unfold take_out. assert (CE : contents V s l = q1 ++ a :: q2) by (unfold contents; now rewrite S).
  rewrite CE, without_split, front_split by auto. destruct M as [MK MO ML MH MC MI].
  assert (INQ : forall l' q' y, seq s l' = Some q' -> l' <> l -> In y q' -> ~ In y (q1 ++ a :: q2)).
  { intros l' q' y S' N I J. apply N. rewrite <- (r_home _ _ _ R _ _ _ S' I). apply (r_home _ _ _ R _ _ _ S J). }
  constructor; cbn [seq value home placed].
  - intros l' q' S'. destruct (Z.eq_dec l' l) as [->|N].
    + rewrite set_same in S'. injection S' as <-. destruct MH as (x' & A & B & C & D). exists x'. split; auto. split.
      { rewrite B, XN. clear. rewrite !app_length. cbn [length]. unfold wrap32.
        set (n := Z.of_nat (length q1 + S (length q2))). replace (Z.of_nat (length q1 + length q2)) with (n - 1) by lia. clearbody n. clear.
        assert (H1 := Z.div_mod (n + 2 ^ 31) (2 ^ 32)). 
        replace ((n + 2 ^ 31) mod 2 ^ 32 - 2 ^ 31 - 1 + 2 ^ 31) with (n - 1 + 2 ^ 31 + - ((n + 2 ^ 31) / 2 ^ 32) * 2 ^ 32) by lia.
        rewrite Z.mod_add by lia. auto. }
      split; auto. split; auto. eapply chain_weak; [|exact MC]. destruct q1 as [|y q1]; auto.
      intros p _. unfold prv_ok. rewrite set_same. discriminate.
    + rewrite set_other in S' by auto. eapply other_list with (l := l) (h := h) (s := s); eauto.
      destruct (r_list _ _ _ R _ _ S') as (x' & A & B & C & D & F). exists x'. split; auto. split; auto. split; auto. split; auto.
      destruct q1 as [|y q1]; auto. rewrite set_other by auto. auto.
  - intros l' q' S'. destruct (Z.eq_dec l' l) as [->|N].
    + rewrite set_same in S'. injection S' as <-. eapply NoDup_remove_1; eauto.
    + rewrite set_other in S' by auto. eapply r_nodup; eauto.
  - intros l' q' y S' I. destruct (Z.eq_dec l' l) as [->|N].
    + rewrite set_same in S'. injection S' as <-. apply (r_home _ _ _ R _ _ _ S). rewrite in_app_iff in *. cbn [In]. tauto.
    + rewrite set_other in S' by auto. eapply r_home; eauto.
  - intros y. pose proof (r_val _ _ _ R y) as RV. pose proof (MK y) as K. destruct (value s y) as [v|].
    + destruct RV as (e & A & B & C & D). rewrite A in K. destruct K as (e' & A' & B' & C'). exists e'.
      split; auto. split; [congruence|]. split; [congruence|]. intros NO.
      assert (NQ : ~ In y (q1 ++ q2)) by (apply (NO l); apply set_same).
      destruct (Z.eq_dec y a) as [->|N].
      * destruct MI as (e2 & M1 & M2 & M3). assert (e2 = e') by congruence. subst. auto.
      * assert (NQ' : ~ In y (q1 ++ a :: q2)) by (rewrite in_app_iff in *; cbn [In]; intros [J|[J|J]]; [tauto|congruence|tauto]).
        rewrite (MO y NQ') in A'. rewrite A in A'. injection A' as <-. apply D.
        intros l' q' S' J. destruct (Z.eq_dec l' l) as [->|NL]; [congruence|]. apply (NO l' q'); auto. now rewrite set_other.
    + now rewrite RV in K.
Qed.

Definition detached s a : Prop := forall l q, seq s l = Some q -> ~ In a q.

Lemma insert_before_split : forall a b q, In b q -> exists q1 q2, q = q1 ++ b :: q2 /\ insert_before a b q = q1 ++ a :: b :: q2.
Proof.
  induction q as [|x q IH]; intros H; [destruct H|]. cbn [insert_before]. destruct (x =? b) eqn:E.
  - apply Z.eqb_eq in E. subst. exists [], q. auto.
  - apply Z.eqb_neq in E. destruct H as [H|H]; [congruence|]. destruct (IH H) as (q1 & q2 & -> & ->). exists (x :: q1), q2. auto.
Qed.
Lemma place_position : forall q a b, match b with Some x => In x q | None => True end -> position q a b (place a b q).
Proof.
  intros q a [b|] H; cbn [position place]; auto. destruct (insert_before_split a b q H) as (q1 & q2 & A & B). eauto.
Qed.
Lemma position_in : forall q a b q', position q a b q' -> forall x, In x q' <-> x = a \/ In x q.
Proof.
  intros q a [b|] q' H x; cbn [position] in H.
  - destruct H as (q1 & q2 & -> & ->). rewrite !in_app_iff. cbn [In]. intuition auto.
  - subst. rewrite in_app_iff. cbn [In]. intuition auto.
Qed.
Lemma position_nodup : forall q a b q', position q a b q' -> NoDup q -> ~ In a q -> NoDup q'.
Proof.
  intros q a [b|] q' H; cbn [position] in H.
  - destruct H as (q1 & q2 & -> & ->). intros A B. apply NoDup_Add with (a := a) (l := q1 ++ b :: q2); auto. apply Add_app.
  - subst. intros A B. apply NoDup_Add with (a := a) (l := q); auto. rewrite <- (app_nil_r q) at 1. apply Add_app.
Qed.
Lemma position_length : forall q a b q', position q a b q' -> length q' = S (length q).
Proof.
  intros q a [b|] q' H; cbn [position] in H.
  - destruct H as (q1 & q2 & -> & ->). rewrite !app_length. cbn [length]. lia.
  - subst. rewrite app_length. cbn [length]. lia.
Qed.

Lemma rep_put_in : forall h s l a b q, Rep h s -> seq s l = Some q -> value s a <> None -> detached s a ->
  match b with Some x => In x q | None => True end ->
  exists h', push_rest V l a b h = Some h' /\ Rep h' (put_in V l a b s).
Proof.
  intros h s l a b q R S VA DA HB. pose proof (r_val _ _ _ R a) as RV. destruct (value s a) as [va|] eqn:EV; [|congruence]. clear VA.
  destruct RV as (e & A1 & A2 & A3 & A4). destruct (A4 DA) as [A5 A6].
  destruct (r_list _ _ _ R _ _ S) as (x & X & XN & XH & XT & XC). pose proof (r_nodup _ _ _ R _ _ S) as ND.
  pose proof (place_position q a b HB) as PO.
  destruct (push_heap V h (prv_ok (placed s l)) l q a b (place a b q) x e) as (h' & E & M); auto; [apply (DA l q S)|].
  exists h'. split; auto. unfold put_in. assert (CE : contents V s l = q) by (unfold contents; now rewrite S). rewrite CE.
  destruct M as [MK MO ML MH MC].
  assert (INQ : forall l' q' y, seq s l' = Some q' -> l' <> l -> In y q' -> y <> a /\ ~ In y q).
  { intros l' q' y S' N I. split; [intros ->; apply (DA l' q'); auto|]. intros J. apply N.
    rewrite <- (r_home _ _ _ R _ _ _ S' I). apply (r_home _ _ _ R _ _ _ S J). }
  constructor; cbn [seq value home placed].
  - intros l' q' S'. destruct (Z.eq_dec l' l) as [->|N].
    + rewrite set_same in S'. injection S' as <-. destruct MH as (x' & B1 & B2 & B3 & B4). exists x'. split; auto. split.
      { rewrite B2, XN, (position_length _ _ _ _ PO). clear. unfold wrap32. set (n := Z.of_nat (length q)).
        replace (Z.of_nat (S (length q))) with (n + 1) by lia. clearbody n.
        assert (H1 := Z.div_mod (n + 2 ^ 31) (2 ^ 32)).
        replace ((n + 2 ^ 31) mod 2 ^ 32 - 2 ^ 31 + 1 + 2 ^ 31) with (n + 1 + 2 ^ 31 + - ((n + 2 ^ 31) / 2 ^ 32) * 2 ^ 32) by lia.
        rewrite Z.mod_add by lia. auto. }
      split; auto. split; auto. eapply chain_weak; [|exact MC].
      destruct (is_front a (place a b q)) eqn:F; auto. intros p <-. intros _. reflexivity.
    + rewrite set_other in S' by auto. eapply other_list with (l := l) (h := h) (s := s); eauto.
      { intros y Hy. destruct (INQ l' q' y S' N Hy). auto. }
      destruct (r_list _ _ _ R _ _ S') as (x' & B1 & B2 & B3 & B4 & B5). exists x'. split; auto. split; auto. split; auto. split; auto.
      destruct (is_front a (place a b q)); auto. rewrite set_other by auto. auto.
  - intros l' q' S'. destruct (Z.eq_dec l' l) as [->|N].
    + rewrite set_same in S'. injection S' as <-. eapply position_nodup; eauto.
    + rewrite set_other in S' by auto. eapply r_nodup; eauto.
  - intros l' q' y S' I. destruct (Z.eq_dec l' l) as [->|N].
    + rewrite set_same in S'. injection S' as <-. apply (position_in _ _ _ _ PO) in I. destruct (Z.eq_dec y a) as [->|NY]; [apply set_same|].
      rewrite set_other by auto. destruct I as [I|I]; [congruence|]. apply (r_home _ _ _ R _ _ _ S I).
    + rewrite set_other in S' by auto. destruct (INQ l' q' y S' N I). rewrite set_other by auto. eapply r_home; eauto.
  - intros y. pose proof (r_val _ _ _ R y) as RV. pose proof (MK y) as K. destruct (value s y) as [v|].
    + destruct RV as (e1 & B1 & B2 & B3 & B4). rewrite B1 in K. destruct K as (e' & A' & B' & C'). exists e'.
      split; auto. split; [congruence|]. split.
      * rewrite C'. unfold set. rewrite B3. auto.
      * intros NO. assert (NQ : ~ In y (place a b q)) by (apply (NO l); apply set_same).
        rewrite (position_in _ _ _ _ PO) in NQ. rewrite MO in A' by tauto. rewrite B1 in A'. injection A' as <-. apply B4.
        intros l' q' S' J. destruct (Z.eq_dec l' l) as [->|NL]; [rewrite S in S'; injection S' as <-; tauto|].
        apply (NO l' q'); auto. now rewrite set_other.
    + now rewrite RV in K.
Qed.

Lemma memberb_iff : forall s a, memberb V s a = true <-> member V s a.
Proof.
  intros. unfold memberb, member. rewrite existsb_exists. split.
  - intros (x & A & B). apply Z.eqb_eq in B. now subst.
  - intros A. exists a. split; auto. apply Z.eqb_refl.
Qed.
Lemma not_member_detached : forall h s a, Rep h s -> ~ member V s a -> detached s a.
Proof.
  intros h s a R N l q S I. apply N. unfold member, contents. rewrite (r_home _ _ _ R _ _ _ S I), S. auto.
Qed.

Lemma is_in_list_ok : forall h s a, Rep h s -> value s a <> None -> seq s (home s a) <> None ->
  exists e, en h a = Some e /\ own e = home s a /\ is_in_list V a h = Some (memberb V s a).
Proof.
  intros h s a R VA HL. pose proof (r_val _ _ _ R a) as RV. destruct (value s a) as [v|]; [|congruence].
  destruct RV as (e & A & B & C & D). exists e. split; auto. split; auto. unfold is_in_list. rewrite A, C.
  destruct (seq s (home s a)) as [q|] eqn:S; [|congruence]. destruct (r_list _ _ _ R _ _ S) as (x & X & XN & XH & XT & XC).
  rewrite X. f_equal. destruct (memberb V s a) eqn:M.
  - apply memberb_iff in M. unfold member, contents in M. rewrite S in M. apply in_split in M. destruct M as (q1 & q2 & ->).
    destruct (snoc_case q1) as [->|(q1' & p & ->)].
    + rewrite XH. cbn [app hd_error]. now rewrite Z.eqb_refl.
    + apply chain_app in XC. destruct XC as [_ XC]. unfold link_of in XC. rewrite last_of_snoc in XC. cbn [ListProofs.chain] in XC.
      destruct XC as ((e2 & E1 & E2 & _) & _). assert (e2 = e) by congruence. subst. rewrite <- E2. now rewrite orb_true_r.
  - assert (NM : ~ member V s a) by (rewrite <- memberb_iff; congruence).
    destruct (D (not_member_detached h s a R NM)) as [-> ->]. rewrite XH. unfold member, contents in NM. rewrite S in NM.
    destruct q as [|y q]; auto. cbn [hd_error]. rewrite eqb_ne; auto. intros ->. apply NM. left. auto.
Qed.

Lemma leave_frame : forall s a, value (leave V a s) = value s /\ home (leave V a s) = home s.
Proof. intros. unfold leave. destruct (memberb V s a); auto. Qed.
Lemma leave_detached : forall h s a, Rep h s -> detached (leave V a s) a.
Proof.
  intros h s a R. unfold leave. destruct (memberb V s a) eqn:M.
  - intros l q S I. unfold take_out in S. cbn [seq] in S. destruct (Z.eq_dec l (home s a)) as [->|N].
    + rewrite set_same in S. injection S as <-. unfold without in I. apply filter_In in I. rewrite Z.eqb_refl in I. destruct I; discriminate.
    + rewrite set_other in S by auto. apply N. symmetry. eapply r_home; eauto.
  - eapply not_member_detached; eauto. rewrite <- memberb_iff. congruence.
Qed.

(** Jsi_ListPush *)
Lemma rep_push : forall h s l a b, Rep h s -> value s a <> None -> seq s l <> None ->
  match b with Some x => In x (contents V s l) /\ x <> a | None => True end -> seq s (home s a) <> None ->
  exists h', list_push V l a b h = Some h' /\ Rep h' (put_in V l a b (leave V a s)).
Proof.
  intros h s l a b R VA SL HB HL. destruct (is_in_list_ok h s a R VA HL) as (e & E & O & B).
  rewrite list_push_eq, B, E, O.
  assert (L : exists h0, (if memberb V s a then list_pop V (home s a) a h else Some h) = Some h0 /\ Rep h0 (leave V a s)).
  { unfold leave. destruct (memberb V s a) eqn:M; [|eauto]. apply memberb_iff in M. apply rep_take_out; auto. }
  destruct L as (h0 & -> & R0). destruct (leave_frame s a) as [LV LH].
  assert (SQ : exists q, seq (leave V a s) l = Some q /\ match b with Some x => In x q | None => True end).
  { destruct (seq s l) as [q0|] eqn:Q; [|congruence]. unfold leave. destruct (memberb V s a) eqn:M.
    - unfold take_out. cbn [seq]. destruct (Z.eq_dec l (home s a)) as [->|N].
      + rewrite set_same. eexists. split; [reflexivity|]. destruct b as [x|]; auto. destruct HB as [HB1 HB2].
        unfold without. apply filter_In. split; auto. apply negb_true_iff. now apply eqb_ne.
      + rewrite set_other by auto. eexists. split; [eassumption|]. destruct b as [x|]; auto. unfold contents in HB. rewrite Q in HB. tauto.
    - eexists. split; [eassumption|]. destruct b as [x|]; auto. unfold contents in HB. rewrite Q in HB. tauto. }
  destruct SQ as (q & S & IB). eapply rep_put_in; eauto; [now rewrite LV|]. eapply leave_detached; eauto.
Qed.

Lemma rep_ext : forall h s s', Rep h s -> (forall l, seq s' l = seq s l) -> (forall a, value s' a = value s a) ->
  (forall a, home s' a = home s a) -> (forall l, placed s' l = placed s l) -> Rep h s'.
Proof.
  intros h s s' R A B C D. constructor.
  - intros l q S. rewrite A in S. rewrite D. eapply r_list; eauto.
  - intros l q S. rewrite A in S. eapply r_nodup; eauto.
  - intros l q a S I. rewrite A in S. rewrite C. eapply r_home; eauto.
  - intros a. rewrite B. pose proof (r_val _ _ _ R a) as RV. destruct (value s a); auto.
    destruct RV as (e & E1 & E2 & E3 & E4). exists e. rewrite C. split; auto. split; auto. split; auto. intros N. apply E4.
    intros l q S. apply (N l). now rewrite A.
Qed.

Lemma dead_detached : forall h s a, Rep h s -> value s a = None -> detached s a.
Proof.
  intros h s a R N l q S I. destruct (r_list _ _ _ R _ _ S) as (x & _ & _ & _ & _ & C).
  destruct (chain_live V _ _ _ _ _ C I) as (e & E). pose proof (r_val _ _ _ R a) as RV. rewrite N in RV. congruence.
Qed.

(** Jsi_ListEntryNew *)
Lemma rep_entry_new : forall h s a l v b, Rep h s -> value s a = None -> seq s l <> None ->
  match b with Some x => In x (contents V s l) | None => True end ->
  exists h', entry_new V a l v b h = Some h' /\ Rep h' (after V (EntryNew V a l v b) s).
Proof.
  intros h s a l v b R NV SL HB. pose proof (dead_detached h s a R NV) as DA.
  set (s1 := mkS (seq s) (set a (Some v) (value s)) (set a l (home s)) (placed s)).
  assert (R1 : Rep (set_en V a (Some (mkE V None None l v)) h) s1).
  { constructor; unfold s1; cbn [seq value home placed].
    - intros l' q S. destruct (r_list _ _ _ R _ _ S) as (x & A & B & C & D & E). exists x. repeat split; auto.
      eapply chain_frame; [|exact E]. intros y Hy. assert (y <> a) by (intros ->; apply (DA l' q); auto). look. auto.
    - intros l' q S. eapply r_nodup; eauto.
    - intros l' q y S I. assert (y <> a) by (intros ->; apply (DA l' q); auto). rewrite set_other by auto. eapply r_home; eauto.
    - intros y. destruct (Z.eq_dec y a) as [->|N].
      + rewrite !set_same, en_same. eexists. split; [reflexivity|]. cbn. auto.
      + rewrite !set_other by auto. rewrite en_other by auto. apply (r_val _ _ _ R). }
  assert (NM : memberb V s1 a = false).
  { apply not_true_iff_false. rewrite memberb_iff. unfold member. intros I. destruct (contents_some s1 _ _ I) as (q & S & J).
    exact (DA _ q S J). }
  destruct (rep_push _ s1 l a b R1) as (h' & E & R'); unfold s1; cbn [seq value home placed]; auto.
  - rewrite set_same. discriminate.
  - destruct b as [x|]; auto. split; auto. intros ->. destruct (contents_some s l a HB) as (q & S & J). exact (DA _ q S J).
  - rewrite set_same. auto.
  - exists h'. split; auto. unfold leave in R'. fold s1 in R'. rewrite NM in R'. eapply rep_ext; [exact R'| | | |]; auto.
    cbn [after put_in home]. intros y. unfold s1, put_in, set. cbn [home]. destruct (y =? a); auto.
Qed.

(** Jsi_ListEntryDelete *)
Lemma rep_free : forall h s a, Rep h s -> detached s a -> Rep (set_en V a None h) (forget V a s).
Proof.
  intros h s a R DA. constructor; unfold forget; cbn [seq value home placed].
  - intros l q S. destruct (r_list _ _ _ R _ _ S) as (x & A & B & C & D & E). exists x. repeat split; auto.
    eapply chain_frame; [|exact E]. intros y Hy. assert (y <> a) by (intros ->; apply (DA l q); auto). look. auto.
  - intros l q S. eapply r_nodup; eauto.
  - intros l q y S I. eapply r_home; eauto.
  - intros y. destruct (Z.eq_dec y a) as [->|N].
    + rewrite set_same, en_same. auto.
    + rewrite set_other by auto. rewrite en_other by auto. apply (r_val _ _ _ R).
Qed.
Lemma rep_entry_delete : forall h s a, Rep h s -> value s a <> None -> (member V s a -> contents V s (home s a) <> [a]) ->
  exists h', entry_delete V a h = Some h' /\ Rep h' (forget V a (leave V a s)).
Proof.
  intros h s a R VA NS. pose proof (r_val _ _ _ R a) as RV. destruct (value s a) as [v|]; [|congruence].
  destruct RV as (e & A & B & C & D). unfold entry_delete. rewrite A, C.
  assert (L : exists h0, match nxt e, prv e with None, None => Some h | _, _ => list_pop V (home s a) a h end = Some h0 /\ Rep h0 (leave V a s)).
  { unfold leave. destruct (memberb V s a) eqn:M.
    - apply memberb_iff in M. destruct (rep_take_out h s (home s a) a R M) as (h0 & E & R0). exists h0. split; auto.
      rewrite E. specialize (NS M). unfold member in M. destruct (contents_some _ _ _ M) as (q & S & I).
      apply in_split in I. destruct I as (q1 & q2 & ->). unfold contents in NS. rewrite S in NS.
      destruct (r_list _ _ _ R _ _ S) as (x & _ & _ & _ & _ & XC). apply chain_app in XC. destruct XC as [_ XC].
      cbn [ListProofs.chain] in XC. destruct XC as ((e2 & E1 & E2 & E3) & _). assert (e2 = e) by congruence. subst e2.
      destruct q2 as [|y q2]; [|rewrite E3; auto]. destruct (snoc_case q1) as [->|(q1' & p & ->)]; [cbn [app] in NS; congruence|].
      unfold link_of in E2. rewrite last_of_snoc in E2. rewrite <- E2. destruct (nxt e); auto.
    - assert (NM : ~ member V s a) by (rewrite <- memberb_iff; congruence).
      destruct (D (not_member_detached h s a R NM)) as [-> ->]. eauto. }
  destruct L as (h0 & -> & R0). eexists. split; [reflexivity|]. apply rep_free; auto. eapply leave_detached; eauto.
Qed.

(** Jsi_ListClear *)
Lemma clear_heap : forall l q h x, li h l = Some x -> head x = hd_error q -> NoDup q -> chain h (fun _ => True) q None ->
  exists h', (forall fuel, (length q < fuel)%nat -> clear_loop V fuel l h = Some h') /\
    (forall y, In y q -> en h' y = None) /\ (forall y, ~ In y q -> en h' y = en h y) /\
    (forall l', l' <> l -> li h' l' = li h l') /\ exists x', li h' l = Some x' /\ head x' = None.
Proof.
  intros l. induction q as [|a q IH]; intros h x X H ND C.
  - exists h. split.
    + intros [|fuel] F; [simpl in F; lia|]. cbn [clear_loop]. now rewrite X, H.
    + split; [intros y []|]. split; auto. split; auto. exists x. auto.
  - cbn [ListProofs.chain] in C. destruct C as ((e & E & _ & EN) & C). inversion ND; subst.
    match goal with A : ~ In a q, B : NoDup q |- _ => rename A into NI; rename B into ND1 end.
    set (h4 := set_en V a None (set_en V a (Some (mkE V None None (own e) (val e))) (set_en V a (Some (mkE V (nxt e) None (own e) (val e)))
                 (set_li V l (Some (mkL (nxt e) (tail x) (num x))) h)))).
    assert (OUT : forall y, y <> a -> en h4 y = en h y) by (intros y Hy; unfold h4; look; auto).
    destruct (IH h4 (mkL (nxt e) (tail x) (num x))) as (h' & A1 & A2 & A3 & A4 & A5); auto.
    { unfold h4. look. auto. }
    { eapply chain_frame; [|eapply chain_weak; [|exact C]; auto]. intros y Hy. apply OUT. intros ->. auto. }
    exists h'. split; [|split; [|split; [|split]]]; auto.
    + intros [|fuel] F; [simpl in F; lia|]. cbn [clear_loop]. rewrite X, H. cbn [hd_error]. rewrite E. unfold put_head. rewrite X.
      unfold put_prv. look. rewrite E. unfold put_nxt. look. unfold entry_delete. look. cbn [ListModel.nxt ListModel.prv ListModel.own ListModel.val].
      apply A1. simpl in F. lia.
    + intros y [<-|I]; auto. rewrite A3 by auto. unfold h4. look. auto.
    + intros y N. rewrite A3 by (intros J; apply N; right; auto). apply OUT. intros ->. apply N. left. auto.
    + intros l' N. rewrite A4 by auto. unfold h4. look. auto.
Qed.
Lemma forget_all_frame : forall q s, seq (forget_all V q s) = seq s /\ home (forget_all V q s) = home s /\ placed (forget_all V q s) = placed s.
Proof. induction q as [|a q IH]; intros s; auto. unfold forget_all in *. cbn [fold_right forget seq home placed]. apply IH. Qed.
Lemma forget_all_value : forall q s a, (In a q -> value (forget_all V q s) a = None) /\ (~ In a q -> value (forget_all V q s) a = value s a).
Proof.
  induction q as [|b q IH]; intros s a; [split; [intros []|auto]|]. unfold forget_all in *. cbn [fold_right forget value].
  destruct (Z.eq_dec a b) as [->|N].
  - rewrite set_same. split; auto. intros J. exfalso. apply J. left. auto.
  - rewrite set_other by auto. destruct (IH s a) as [I1 I2]. split; [intros [J|J]; [congruence|auto]|intros J; apply I2; intros K; apply J; right; auto].
Qed.

Lemma rep_clear : forall h s l, Rep h s -> seq s l <> None ->
  exists h', (forall fuel, (length (contents V s l) < fuel)%nat -> list_clear V fuel l h = Some h') /\ Rep h' (after V (Clear V l) s).
Proof.
  intros h s l R SL. unfold contents. destruct (seq s l) as [q|] eqn:S; [|congruence]. clear SL.
  destruct (r_list _ _ _ R _ _ S) as (x & X & XN & XH & XT & XC). pose proof (r_nodup _ _ _ R _ _ S) as ND.
  destruct (clear_heap l q h x X XH ND) as (h1 & A1 & A2 & A3 & A4 & x' & A5 & A6); [eapply chain_weak; [|exact XC]; auto|].
  exists (set_li V l (Some (mkL (head x') (tail x') 0)) h1). split.
  { intros fuel F. unfold list_clear. rewrite A1 by auto. now rewrite A5. }
  cbn [after]. destruct (forget_all_frame (contents V s l) s) as (F1 & F2 & F3). rewrite F1, F2, F3.
  assert (CE : contents V s l = q) by (unfold contents; now rewrite S). rewrite CE.
  assert (INQ : forall l' q' y, seq s l' = Some q' -> l' <> l -> In y q' -> ~ In y q).
  { intros l' q' y S' N I J. apply N. rewrite <- (r_home _ _ _ R _ _ _ S' I). apply (r_home _ _ _ R _ _ _ S J). }
  constructor; cbn [seq value home placed].
  - intros l' q' S'. destruct (Z.eq_dec l' l) as [->|N].
    + rewrite set_same in S'. injection S' as <-. look. eexists. split; [reflexivity|]. cbn. repeat split; auto. congruence.
    + rewrite set_other in S' by auto. eapply other_list with (l := l) (h := h) (s := s); [eassumption|exact N|look; auto|intros y Hy; look; eauto|eapply r_list; eauto].
  - intros l' q' S'. destruct (Z.eq_dec l' l) as [->|N].
    + rewrite set_same in S'. injection S' as <-. constructor.
    + rewrite set_other in S' by auto. eapply r_nodup; eauto.
  - intros l' q' y S' I. destruct (Z.eq_dec l' l) as [->|N].
    + rewrite set_same in S'. injection S' as <-. destruct I.
    + rewrite set_other in S' by auto. eapply r_home; eauto.
  - intros y. destruct (forget_all_value q s y) as [G1 G2]. look. destruct (in_dec y q) as [J|J].
    + rewrite G1 by auto. auto.
    + rewrite G2 by auto. rewrite A3 by auto. pose proof (r_val _ _ _ R y) as RV. destruct (value s y); auto.
      destruct RV as (e & B1 & B2 & B3 & B4). exists e. repeat split; auto; apply B4; intros l' q' S';
        (destruct (Z.eq_dec l' l) as [->|N]; [congruence|apply (H l' q'); now rewrite set_other]).
Qed.
Lemma rep_list_delete : forall h s l, Rep h s -> seq s l <> None ->
  exists h', (forall fuel, (length (contents V s l) < fuel)%nat -> list_delete V fuel l h = Some h') /\ Rep h' (after V (ListDelete V l) s).
Proof.
  intros h s l R SL. destruct (rep_clear h s l R SL) as (h1 & A & R1). exists (set_li V l None h1). split.
  { intros fuel F. unfold list_delete. now rewrite A. }
  cbn [after] in *. set (s1 := forget_all V (contents V s l) s) in *. constructor; cbn [seq value home placed].
  - intros l' q' S'. destruct (Z.eq_dec l' l) as [->|N]; [rewrite set_same in S'; discriminate|].
    rewrite set_other in S' by auto. look.
    destruct (r_list _ _ _ R1 l' q') as (x & B & B1 & B2 & B3 & B4); [cbn [seq]; now rewrite set_other|].
    exists x. repeat split; auto. eapply chain_frame; [|exact B4]. reflexivity.
  - intros l' q' S'. destruct (Z.eq_dec l' l) as [->|N]; [rewrite set_same in S'; discriminate|].
    rewrite set_other in S' by auto. apply (r_nodup _ _ _ R1 l'). cbn [seq]. now rewrite set_other.
  - intros l' q' y S' I. destruct (Z.eq_dec l' l) as [->|N]; [rewrite set_same in S'; discriminate|].
    rewrite set_other in S' by auto. apply (r_home _ _ _ R1 l' q' y); auto. cbn [seq]. now rewrite set_other.
  - intros y. look. pose proof (r_val _ _ _ R1 y) as RV. cbn [value home seq] in RV. destruct (value s1 y); auto.
    destruct RV as (e & B1 & B2 & B3 & B4). exists e. split; auto. split; auto. split; auto. intros H. apply B4. intros l' q' S'.
    destruct (Z.eq_dec l' l) as [->|N]; [rewrite set_same in S'; injection S' as <-; auto|apply (H l' q'); rewrite set_other in *; auto].
Qed.
End L.
