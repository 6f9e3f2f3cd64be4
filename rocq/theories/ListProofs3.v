(** Putting an entry into a list. *)
From Coq Require Import ZArith List Bool Lia.
Import ListNotations.
From Verif Require Import Bits LimitModel EventProofs4 ListModel ListSpec ListProofs ListProofs2.
Local Open Scope Z_scope.

Section L.
Variable V : Type.
Implicit Types (h : heap V) (s : state V) (q : list Z).
Notation en := (en V). Notation li := (li V). Notation nxt := (nxt V). Notation prv := (prv V). Notation own := (own V). Notation val := (val V).
Notation chain := (chain V). Notation keeps := (keeps V).
Local Notation "x <- a ;; b" := (match a with Some x => b | None => None end) (at level 60, a at next level, right associativity).

(** Jsi_ListPush after the item was taken out of the list it was in. *)
Definition push_rest (l item : Z) (before : option Z) (h0 : heap V) : option (heap V) :=
  h1 <- put_own V item l h0 ;;
  x <- li h1 l ;;
  h2 <- match head x with
        | None => h' <- put_tail V l (Some item) h1 ;; put_head V l (Some item) h'
        | Some hd =>
            if item =? hd then None
            else match before with
                 | None => h' <- put_prv V item (tail x) h1 ;; t <- tail x ;; h'' <- put_nxt V t (Some item) h' ;;
                           put_tail V l (Some item) h''
                 | Some b =>
                     if b =? hd then
                       h' <- put_nxt V item (Some hd) h1 ;; h'' <- put_prv V hd (Some item) h' ;; put_head V l (Some item) h''
                     else
                       h' <- put_nxt V item (Some b) h1 ;; eb <- en h' b ;; h'' <- put_prv V item (prv eb) h' ;;
                       p <- prv eb ;; h3 <- put_nxt V p (Some item) h'' ;; put_prv V b (Some item) h3
                 end
        end ;;
  add_num V l 1 h2.
Lemma list_push_eq : forall l item before h, list_push V l item before h =
  (b <- is_in_list V item h ;; e <- en h item ;;
   h0 <- (if b : bool then list_pop V (own e) item h else Some h) ;; push_rest l item before h0).
Proof. reflexivity. Qed.

(** Values kept, owners too except for the item. *)
Definition keeps_but h (item l : Z) h' : Prop := forall x,
  match en h x with
  | None => en h' x = None
  | Some e => exists e', en h' x = Some e' /\ val e' = val e /\ own e' = if x =? item then l else own e
  end.
Record inserted h (l item : Z) q q' (P : option Z -> Prop) (n : Z) h' : Prop := {
  p_keep : keeps_but h item l h';
  p_out : forall y, y <> item -> ~ In y q -> en h' y = en h y;
  p_li : forall l', l' <> l -> li h' l' = li h l';
  p_hdr : exists x', li h' l = Some x' /\ num x' = wrap32 (n + 1) /\ head x' = hd_error q' /\ tail x' = last_of q';
  p_chain : chain h' (if is_front item q' then eq None else P) q' None }.

Lemma keeps_but_intro : forall h h1 h2 item l e, en h item = Some e ->
  h1 = set_en V item (Some (mkE V (nxt e) (prv e) l (val e))) h -> keeps h1 h2 -> keeps_but h item l h2.
Proof.
  intros h h1 h2 item l e E -> K x. specialize (K x). destruct (Z.eq_dec x item) as [->|N].
  - rewrite en_same in K. rewrite E, Z.eqb_refl. destruct K as (e' & A & B & C). eauto.
  - rewrite en_other in K by auto. rewrite eqb_ne by auto. exact K.
Qed.

Lemma push_end : forall h h1 h2 l item q q' P n x2 e,
  en h item = Some e -> h1 = set_en V item (Some (mkE V (nxt e) (prv e) l (val e))) h ->
  keeps h1 h2 -> (forall y, y <> item -> ~ In y q -> en h2 y = en h y) -> (forall l', l' <> l -> li h2 l' = li h l') ->
  li h2 l = Some x2 -> num x2 = n -> head x2 = hd_error q' -> tail x2 = last_of q' ->
  chain h2 (if is_front item q' then eq None else P) q' None ->
  exists h', add_num V l 1 h2 = Some h' /\ inserted h l item q q' P n h'.
Proof.
  intros h h1 h2 l item q q' P n x2 e E H1 K O OL X N H T C. unfold add_num. rewrite X. eexists. split; [reflexivity|].
  constructor.
  - eapply keeps_but_intro; [exact E|exact H1|]. eapply keeps_trans; [exact K|]. apply keeps_li.
  - intros y A B. look. auto.
  - intros l' A. look. auto.
  - look. eexists. split; [reflexivity|]. cbn [num head tail]. rewrite N. auto.
  - eapply chain_frame; [|exact C]. reflexivity.
Qed.

Definition position q (item : Z) (before : option Z) q' : Prop :=
  match before with
  | None => q' = q ++ [item]
  | Some b => exists q1 q2, q = q1 ++ b :: q2 /\ q' = q1 ++ item :: b :: q2
  end.

Lemma push_heap : forall h P l q item before q' x e,
  li h l = Some x -> head x = hd_error q -> (q <> [] -> tail x = last_of q) ->
  NoDup q -> ~ In item q -> chain h P q None ->
  en h item = Some e -> nxt e = None -> prv e = None -> position q item before q' ->
  exists h', push_rest l item before h = Some h' /\ inserted h l item q q' P (num x) h'.
Proof.
  intros h P l q item before q' x e X H T ND NI C E EN EP PO.
  unfold push_rest. unfold put_own at 1. rewrite E. set (h1 := set_en V item _ h).
  assert (H1 : forall y, y <> item -> en h1 y = en h y) by (intros y Hy; unfold h1; look; auto).
  assert (I1 : en h1 item = Some (mkE V None None l (val e))) by (unfold h1; look; rewrite EN, EP; reflexivity).
  assert (X1 : li h1 l = Some x) by exact X. rewrite X1.
  assert (C' : chain h1 P q None).
  { eapply chain_frame; [|exact C]. intros y Hy. apply H1. intros ->. auto. }
  assert (LV : forall y, In y q -> exists ey, en h1 y = Some ey) by (intros y Hy; eapply chain_live; eauto).
  assert (OUTL : forall l', l' <> l -> li h1 l' = li h l') by reflexivity.
  assert (ND' : forall q1 y q2, q = q1 ++ y :: q2 -> ~ In y q1 /\ ~ In y q2).
  { intros q1 y q2 ->. apply NoDup_remove_2 in ND. rewrite in_app_iff in ND. tauto. }
  destruct q as [|a0 q0].
  { rewrite H. cbn [hd_error]. unfold put_tail at 1. rewrite X1. unfold put_head at 1. look.
    destruct before as [b|]; cbn [position] in PO; [destruct PO as ([|? ?] & q2 & PO & _); discriminate|]. subst q'.
    eapply push_end with (h1 := h1); [exact E|reflexivity|kp| | |look; reflexivity|reflexivity|reflexivity|reflexivity|].
    - intros y A B. look. auto.
    - intros l' A. look. auto.
    - cbn [app is_front ListProofs.chain]. rewrite Z.eqb_refl. split; auto. look. eexists. split; [exact I1|]. auto. }
  rewrite H. cbn [hd_error].
  assert (NA : item <> a0) by (intros ->; apply NI; left; auto). rewrite eqb_ne by auto.
  assert (T' : tail x = last_of (a0 :: q0)) by (apply T; discriminate). clear T.
  remember (a0 :: q0) as q eqn:Q. assert (HQ : hd_error q = Some a0) by (subst q; auto).
  destruct before as [b|]; cbn [position] in PO.
  - destruct PO as (q1 & q2 & PQ & ->). destruct (snoc_case q1) as [->|(q1' & p & ->)].
    + cbn [app] in *. subst q. injection PQ as -> ->. rewrite Z.eqb_refl.
      destruct (ND' [] b q2 eq_refl) as [_ NB].
      unfold put_nxt at 1. rewrite I1. unfold put_prv at 1. look.
      destruct (LV b (or_introl eq_refl)) as (eb & BE). rewrite BE. unfold put_head at 1. look. rewrite X1.
      eapply push_end with (h1 := h1) (q := b :: q2); [exact E|reflexivity|kp| | |look; reflexivity|reflexivity|reflexivity| |].
      * intros y A B. assert (y <> b) by (intros ->; apply B; left; auto). look. auto.
      * intros l' A. look. auto.
      * cbn [tail]. rewrite T', last_of_cons. auto.
      * cbn [is_front]. rewrite Z.eqb_refl. change (item :: b :: q2) with ([item] ++ b :: q2). apply chain_app. split.
        -- cbn [ListProofs.chain first_or]. split; auto. look. eexists. split; [reflexivity|]. auto.
        -- unfold link_of. cbn [last_of rev app]. eapply chain_first; [exact NB| | |exact C'].
           ++ intros y Hy. assert (y <> b) by (intros ->; auto). assert (y <> item) by (intros ->; apply NI; right; auto). look. auto.
           ++ intros e0 E0. look. eexists. split; [reflexivity|]. cbn. split; congruence.
    + assert (NB : b <> a0).
      { intros ->. destruct (ND' (q1' ++ [p]) a0 q2 PQ) as [A _]. apply A. rewrite Q in PQ. destruct q1' as [|z q1'];
          cbn [app] in PQ; injection PQ as <- _; [left|left]; auto. }
      rewrite eqb_ne by auto.
      assert (BI : In b q) by (rewrite PQ, !in_app_iff; right; left; auto).
      assert (PI : In p q) by (rewrite PQ, !in_app_iff; left; right; left; auto).
      destruct (LV b BI) as (eb & BE). destruct (LV p PI) as (ep & PE).
      assert (NBI : b <> item) by (intros ->; auto). assert (NPI : p <> item) by (intros ->; auto).
      destruct (ND' (q1' ++ [p]) b q2 PQ) as [B1 B2]. rewrite in_app_iff in B1. cbn [In] in B1.
      assert (NBP : b <> p) by (intros ->; tauto).
      assert (PQ' := PQ). rewrite <- app_assoc in PQ'. cbn [app] in PQ'. destruct (ND' q1' p (b :: q2) PQ') as [P1 P2].
      rewrite PQ in C'. apply chain_app in C'. destruct C' as [C1 C2]. cbn [first_or] in C1. unfold link_of in C2. rewrite last_of_snoc in C2.
      assert (EB : prv eb = Some p). { cbn [ListProofs.chain] in C2. destruct C2 as ((e2 & A & B & _) & _). congruence. }
      unfold put_nxt at 1. rewrite I1. look. rewrite BE, EB. unfold put_prv at 1. look. unfold put_nxt at 1. look. rewrite PE. unfold put_prv at 1. look. rewrite BE.
      eapply push_end with (h1 := h1) (q := q); [exact E|reflexivity|kp| | |look; exact X1|reflexivity| | |].
      * intros y A B. assert (y <> b) by (intros ->; auto). assert (y <> p) by (intros ->; auto). look. auto.
      * intros l' A. look. auto.
      * rewrite H, Q. rewrite Q in PQ. destruct q1' as [|z q1']; cbn [app] in PQ |- *; injection PQ as -> _; reflexivity.
      * rewrite T', PQ, !last_of_app, last_of_cons. auto.
      * replace (is_front item ((q1' ++ [p]) ++ item :: b :: q2)) with false.
        2:{ destruct q1' as [|z q1']; cbn [app is_front]; symmetry; apply eqb_ne; auto. intros ->. apply NI. rewrite PQ. left. auto. }
        apply chain_app. cbn [first_or]. split.
        -- eapply chain_last; [exact P1| | |exact C1].
           ++ intros y Hy. assert (y <> p) by (intros ->; auto). assert (y <> b) by (intros ->; tauto).
              assert (y <> item) by (intros ->; apply NI; rewrite PQ, !in_app_iff; auto). look. auto.
           ++ intros e0 E0. look. eexists. split; [reflexivity|]. cbn. split; congruence.
        -- unfold link_of. rewrite last_of_snoc. change (item :: b :: q2) with ([item] ++ b :: q2). apply chain_app. cbn [first_or]. split.
           ++ cbn [ListProofs.chain]. split; auto. look. eexists. split; [reflexivity|]. auto.
           ++ unfold link_of. cbn [last_of rev app]. eapply chain_first; [exact B2| | |exact C2].
              ** intros y Hy. assert (y <> b) by (intros ->; auto). assert (y <> p) by (intros ->; apply P2; right; auto).
                 assert (y <> item) by (intros ->; apply NI; rewrite PQ, !in_app_iff; right; right; auto). look. auto.
              ** intros e0 E0. look. eexists. split; [reflexivity|]. cbn. split; congruence.
  - subst q'. destruct (snoc_case q) as [->|(q1 & t & QT)]; [discriminate|]. rewrite T', QT, last_of_snoc.
    assert (TI : In t q) by (rewrite QT, in_app_iff; right; left; auto).
    assert (NT : t <> item) by (intros ->; auto).
    destruct (LV t TI) as (et & TE). destruct (ND' q1 t [] QT) as [T1 _].
    unfold put_prv at 1. rewrite I1. unfold put_nxt at 1. look. rewrite TE. unfold put_tail at 1. look. rewrite X1.
    rewrite <- QT.
    eapply push_end with (h1 := h1) (q := q); [exact E|reflexivity|kp| | |look; reflexivity|reflexivity| | |].
    * intros y A B. assert (y <> t) by (intros ->; auto). look. auto.
    * intros l' A. look. auto.
    * cbn [head]. rewrite H, Q. reflexivity.
    * cbn [tail]. now rewrite last_of_snoc.
    * replace (is_front item (q ++ [item])) with false by (rewrite Q; cbn [app is_front]; symmetry; apply eqb_ne; auto).
      apply chain_app. cbn [first_or]. split.
      -- rewrite QT in C' |- *. eapply chain_last; [exact T1| | |exact C'].
         ++ intros y Hy. assert (y <> t) by (intros ->; auto). assert (y <> item) by (intros ->; apply NI; rewrite QT, in_app_iff; auto). look. auto.
         ++ intros e0 E0. look. eexists. split; [reflexivity|]. cbn. split; congruence.
      -- unfold link_of. rewrite QT, last_of_snoc. cbn [ListProofs.chain]. split; auto. look. eexists. split; [reflexivity|]. auto.
Qed.
End L.
