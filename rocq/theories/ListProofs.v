(** Lemmas about the linked lists. *)
From Coq Require Import ZArith List Bool Lia.
Import ListNotations.
From Verif Require Import Bits LimitModel EventProofs4 ListModel ListSpec.
Local Open Scope Z_scope.

Section L.
Variable V : Type.
Implicit Types (h : heap V) (s : state V) (q : list Z).
Notation en := (en V). Notation li := (li V). Notation nxt := (nxt V). Notation prv := (prv V). Notation own := (own V). Notation val := (val V).

Lemma in_dec : forall (a : Z) q, In a q \/ ~ In a q.
Proof. intros. destruct (in_dec Z.eq_dec a q); auto. Qed.

(** The chain of a list: [P] holds of the first entry's prev, [n] is the last entry's next. *)
Fixpoint chain h (P : option Z -> Prop) q (n : option Z) : Prop :=
  match q with
  | [] => True
  | x :: r => (exists e, en h x = Some e /\ P (prv e) /\ nxt e = match r with [] => n | y :: _ => Some y end)
              /\ chain h (eq (Some x)) r n
  end.
Definition link_of q (P : option Z -> Prop) : option Z -> Prop :=
  match last_of q with None => P | Some p => eq (Some p) end.
Definition first_or q (n : option Z) : option Z := match q with [] => n | y :: _ => Some y end.

Lemma last_of_app : forall q x r, last_of (q ++ x :: r) = last_of (x :: r).
Proof.
  intros. unfold last_of. rewrite rev_app_distr. simpl. destruct (rev r); reflexivity.
Qed.
Lemma last_of_snoc : forall q x, last_of (q ++ [x]) = Some x.
Proof. intros. rewrite last_of_app. reflexivity. Qed.
Lemma last_of_cons : forall x y r, last_of (x :: y :: r) = last_of (y :: r).
Proof. intros. apply (last_of_app [x]). Qed.
Lemma snoc_case : forall q, q = [] \/ exists q' x, q = q' ++ [x].
Proof. intros q. induction q as [|x q _] using rev_ind; eauto. Qed.

Lemma chain_app : forall h q1 q2 P n,
  chain h P (q1 ++ q2) n <-> chain h P q1 (first_or q2 n) /\ chain h (link_of q1 P) q2 n.
Proof.
  induction q1 as [|x q1 IH]; intros q2 P n.
  - cbn [app chain]. unfold link_of, last_of. simpl. tauto.
  - cbn [app chain]. rewrite IH. clear IH.
    assert (E : link_of (x :: q1) P = link_of q1 (eq (Some x))).
    { unfold link_of. destruct q1 as [|y q1]; [reflexivity|]. rewrite last_of_cons.
      destruct (last_of (y :: q1)) eqn:L; auto. exfalso. destruct (snoc_case (y :: q1)) as [D|(a & b & D)]; [discriminate|].
      rewrite D, last_of_snoc in L. discriminate. }
    rewrite E. destruct q1 as [|y q1]; cbn [app first_or]; destruct q2; cbn [first_or app]; tauto.
Qed.
Lemma chain_frame : forall h h' q P n, (forall x, In x q -> en h' x = en h x) -> chain h P q n -> chain h' P q n.
Proof.
  induction q as [|x q IH]; intros P n A H; [exact Logic.I|]. cbn [chain] in *. destruct H as ((e & H1 & H2) & H3).
  split; [exists e; rewrite A by (left; auto); auto|]. apply IH; auto. intros; apply A; right; auto.
Qed.
Lemma chain_weak : forall h q (P Q : option Z -> Prop) n, (forall p, P p -> Q p) -> chain h P q n -> chain h Q q n.
Proof. intros h [|x q] P Q n A H; cbn [chain] in *; [auto|]. destruct H as ((e & H1 & H2 & H3) & H4). split; eauto. Qed.
Lemma chain_live : forall h q P n x, chain h P q n -> In x q -> exists e, en h x = Some e.
Proof.
  induction q as [|y q IH]; intros P n x H J; [destruct J|]. cbn [chain] in H. destruct H as ((e & H1 & _) & H2).
  destruct J as [->|J]; eauto.
Qed.
(** The last entry's next is changed. *)
Lemma chain_last : forall h h' q p P n n', ~ In p q ->
  (forall x, In x q -> en h' x = en h x) ->
  (forall e, en h p = Some e -> exists e', en h' p = Some e' /\ prv e' = prv e /\ nxt e' = n') ->
  chain h P (q ++ [p]) n -> chain h' P (q ++ [p]) n'.
Proof.
  intros h h' q p P n n' N A B H. apply chain_app in H. apply chain_app. destruct H as [H1 H2].
  split; [eapply chain_frame; eauto|]. cbn [chain] in *. destruct H2 as ((e & H3 & H4 & H5) & _).
  split; auto. destruct (B e H3) as (e' & B1 & B2 & B3). exists e'. rewrite B2. auto.
Qed.
(** The first entry's prev is changed. *)
Lemma chain_first : forall h h' p q (P P' : option Z -> Prop) n, ~ In p q ->
  (forall x, In x q -> en h' x = en h x) ->
  (forall e, en h p = Some e -> exists e', en h' p = Some e' /\ P' (prv e') /\ nxt e' = nxt e) ->
  chain h P (p :: q) n -> chain h' P' (p :: q) n.
Proof.
  intros h h' p q P P' n N A B H. cbn [chain] in *. destruct H as ((e & H3 & H4 & H5) & H6).
  split; [|eapply chain_frame; eauto]. destruct (B e H3) as (e' & B1 & B2 & B3). exists e'. rewrite B3. auto.
Qed.

(** ** The representation *)
Definition prv_ok (b : bool) (p : option Z) : Prop := b = true -> p = None.
Record Rep h s : Prop := {
  r_list : forall l q, seq s l = Some q -> exists x, li h l = Some x /\ num x = wrap32 (Z.of_nat (length q)) /\
      head x = hd_error q /\ (q <> [] -> tail x = last_of q) /\ chain h (prv_ok (placed s l)) q None;
  r_nodup : forall l q, seq s l = Some q -> NoDup q;
  r_home : forall l q a, seq s l = Some q -> In a q -> home s a = l;
  r_val : forall a, match value s a with
                    | None => en h a = None
                    | Some v => exists e, en h a = Some e /\ val e = v /\ own e = home s a /\
                                  ((forall l q, seq s l = Some q -> ~ In a q) -> nxt e = None /\ prv e = None)
                    end }.


(** ** Reading after writing *)
Lemma en_same : forall a e h, en (set_en V a e h) a = e.
Proof. intros. cbn [set_en ListModel.en]. now rewrite Z.eqb_refl. Qed.
Lemma en_other : forall a b e h, b <> a -> en (set_en V a e h) b = en h b.
Proof. intros. cbn [set_en ListModel.en]. destruct (b =? a) eqn:E; auto. apply Z.eqb_eq in E. contradiction. Qed.
Lemma en_li : forall l x h b, en (set_li V l x h) b = en h b.
Proof. reflexivity. Qed.
Lemma li_same : forall l x h, li (set_li V l x h) l = x.
Proof. intros. cbn [set_li ListModel.li]. now rewrite Z.eqb_refl. Qed.
Lemma li_other : forall l x h b, b <> l -> li (set_li V l x h) b = li h b.
Proof. intros. cbn [set_li ListModel.li]. destruct (b =? l) eqn:E; auto. apply Z.eqb_eq in E. contradiction. Qed.
Lemma li_en : forall a e h l, li (set_en V a e h) l = li h l.
Proof. reflexivity. Qed.

(** The values and owners are kept, nothing is freed or allocated. *)
Definition keeps h h' : Prop := forall x,
  match en h x with
  | None => en h' x = None
  | Some e => exists e', en h' x = Some e' /\ val e' = val e /\ own e' = own e
  end.
Lemma keeps_refl : forall h, keeps h h.
Proof. intros h x. destruct (en h x) eqn:E; eauto. Qed.
Lemma keeps_trans : forall h1 h2 h3, keeps h1 h2 -> keeps h2 h3 -> keeps h1 h3.
Proof.
  intros h1 h2 h3 A B x. specialize (A x). specialize (B x). destruct (en h1 x).
  - destruct A as (e' & E & E1 & E2). rewrite E in B. destruct B as (e2 & F & F1 & F2). exists e2. split; [auto|split; congruence].
  - now rewrite A in B.
Qed.
Lemma keeps_put : forall h a e e', en h a = Some e -> val e' = val e -> own e' = own e -> keeps h (set_en V a (Some e') h).
Proof.
  intros h a e e' H1 H2 H3 x. destruct (Z.eq_dec x a) as [->|N].
  - rewrite H1, en_same. eauto.
  - rewrite (en_other a x) by auto. destruct (en h x); eauto.
Qed.
Lemma keeps_li : forall h l x, keeps h (set_li V l x h).
Proof. intros h l x y. rewrite en_li. destruct (en h y); eauto. Qed.
Lemma keeps_back : forall h h' x e', keeps h h' -> en h' x = Some e' -> exists e, en h x = Some e /\ val e' = val e /\ own e' = own e.
Proof.
  intros h h' x e' K H. specialize (K x). destruct (en h x) as [e|]; [|congruence].
  destruct K as (e2 & E & E1 & E2). exists e. split; auto. split; congruence.
Qed.
End L.
Arguments en_same {V}. Arguments en_other {V}. Arguments li_same {V}. Arguments li_other {V}.
(** Reduce lookups in an updated heap. *)
Ltac look := repeat (rewrite ?en_li, ?li_en, ?en_same, ?li_same;
  match goal with
  | |- context [ListModel.en _ (set_en _ ?a ?e ?h) ?b] => rewrite (en_other a b e h) by (auto; congruence)
  | |- context [ListModel.li _ (set_li _ ?a ?e ?h) ?b] => rewrite (li_other a e h b) by (auto; congruence)
  end); rewrite ?en_li, ?li_en, ?en_same, ?li_same.

Ltac kp := repeat match goal with
  | |- ListProofs.keeps _ ?h ?h => apply keeps_refl
  | |- ListProofs.keeps ?V ?h0 (set_li _ _ _ ?h) => apply (keeps_trans V h0 h); [|apply keeps_li]
  | |- ListProofs.keeps ?V ?h0 (set_en _ _ _ ?h) => apply (keeps_trans V h0 h);
      [|eapply keeps_put; [look; first [eassumption | reflexivity]|reflexivity|reflexivity]]
  end; auto.
