(** Invariant of the event loop. *)
From Coq Require Import ZArith List Bool Lia Permutation.
Import ListNotations.
From Verif Require Import TreeModel TreeSpec HashModel HashSpec HashProofs HashProps Bits LimitModel EventModel EventSpec.
Local Open Scope Z_scope.

Definition PK (k : Z) : Prop := 0 <= k < 2 ^ 64.
Lemma GK : good_kind PK oneword_kind.
Proof. exact (good_supported _ _ _ sup_word). Qed.

Notation hinv := (inv (V := event) PK oneword_kind).
Notation Ents s := (ents (tbl s)).

Ltac inv_ok H := injection H as <-.

(** ** Logs only grow *)
Definition grows (s s' : st) : Prop := exists l, log s' = l ++ log s.
Lemma grows_refl : forall s, grows s s.
Proof. intros s; exists []; auto. Qed.
Lemma grows_trans : forall a b c, grows a b -> grows b c -> grows a c.
Proof. intros a b c [l1 H1] [l2 H2]. exists (l2 ++ l1). now rewrite H2, H1, app_assoc. Qed.
Lemma grows_same : forall s s', log s' = log s -> grows s s'.
Proof. intros s s' H. exists []; auto. Qed.
Lemma grows_cons : forall s s' o, log s' = o :: log s -> grows s s'.
Proof. intros s s' o H. exists [o]; auto. Qed.

Lemma fresh_log : forall f s e s', fresh_entry f s = Ok (e, s') -> log s' = log s.
Proof.
  induction f as [|f IH]; cbn [fresh_entry]; intros s e s' H; [discriminate|].
  destruct (hash_entry_new oneword_kind (evIdx s + 1) (tbl s)) as [[[e0 nw] t]|]; cbn [of_opt rbind] in H; [|discriminate].
  destruct nw; [injection H as <- <-; reflexivity|]. apply IH in H. exact H.
Qed.

Lemma grows_all : forall f,
  (forall m c ni n cnt hs s x s', walk f m c ni n cnt hs s = Ok (x, s') -> grows s s') /\
  (forall acts s s', run_acts f acts s = Ok s' -> grows s s') /\
  (forall m s x s', process f m s = Ok (x, s') -> grows s s') /\
  (forall mt st0 sl s s', update f mt st0 sl s = Ok s' -> grows s s').
Proof.
  induction f as [|f (IHw & IHr & IHp & IHu)].
  { repeat split; intros; discriminate. }
  split; [|split; [|split]].
  - intros m c ni n cnt hs s x s' H. cbn [walk] in H.
    destruct (hash_next (tbl s) hs) as [|e hs'|]; [injection H as <- <-; apply grows_refl| |discriminate].
    destruct (hdata e) as [ev|]; [|eauto].
    destruct (ni <? wrap32 (hkey e)); [eauto|].
    match type of H with (if ?b then _ else _) = _ => destruct b end; [eauto|].
    match type of H with (if ?b then _ else _) = _ => destruct b end.
    { apply IHw in H. exact H. }
    match type of H with (let '(_, _) := next_acts ?s2 in _) = _ =>
      assert (G2 : grows s s2) by (eapply grows_cons; reflexivity);
      assert (G3 : log (snd (next_acts s2)) = log s2) by (unfold next_acts; destruct (script s2); reflexivity);
      destruct (next_acts s2) as [acts s3] end.
    cbn [snd] in G3. destruct (run_acts f acts s3) as [s4| |] eqn:ER; cbn [rbind] in H; try discriminate.
    destruct (after_call c (hptr e) s4) as [s5| |] eqn:EA; cbn [rbind] in H; try discriminate.
    assert (G5 : log s5 = log s4).
    { unfold after_call in EA. destruct (at_ptr (hptr e) s4) as [e4|]; [|discriminate].
      destruct (hdata e4) as [ev4|]; [|discriminate].
      destruct (eonce _); [|injection EA as <-; reflexivity].
      unfold event_free in EA. destruct (entry_delete _ _ _); cbn [of_opt rbind] in EA; [|discriminate].
      injection EA as <-. reflexivity. }
    assert (G15 : grows s s5).
    { eapply grows_trans; [exact G2|]. eapply grows_trans; [apply grows_same; exact G3|].
      eapply grows_trans; [apply (IHr _ _ _ ER)|]. now apply grows_same. }
    destruct ((0 <=? m) && _).
    + injection H as <- <-. exact G15.
    + eapply grows_trans; [exact G15|eauto].
  - intros acts s s' H. cbn [run_acts] in H. destruct acts as [|a r]; [injection H as <-; apply grows_refl|].
    match type of H with rbind ?x _ = _ => destruct x as [s1| |] eqn:E1 end; cbn [rbind] in H; try discriminate.
    eapply grows_trans; [|exact (IHr _ _ _ H)]. clear H.
    destruct a as [d|ms once|id| | |m|mt sl].
    + injection E1 as <-. now apply grows_same.
    + unfold interval_timer in E1. destruct (fresh_entry f s) as [[e s2]| |] eqn:F; cbn [rbind] in E1; try discriminate.
      destruct (due_at _ _) as [ws wm]. injection E1 as <-. apply fresh_log in F.
      eapply grows_trans; [apply grows_same; exact F|eapply grows_cons; reflexivity].
    + unfold clear_interval in E1. cbv zeta in E1. destruct (negb (hdlId s =? 0) && _); [injection E1 as <-; apply grows_refl|].
      destruct (hash_find oneword_kind _ (tbl s)); [|injection E1 as <-; apply grows_refl].
      destruct (entry_delete _ _ _); cbn [of_opt rbind] in E1; [|discriminate].
      injection E1 as <-. eapply grows_cons; reflexivity.
    + unfold add_handler in E1. destruct (negb _); [injection E1 as <-; apply grows_refl|].
      destruct (fresh_entry f s) as [[e s2]| |] eqn:F; cbn [rbind] in E1; try discriminate.
      injection E1 as <-. apply fresh_log in F.
      eapply grows_trans; [apply grows_same; exact F|eapply grows_cons; reflexivity].
    + unfold event_new in E1. destruct (fresh_entry f s) as [[e s2]| |] eqn:F; cbn [rbind] in E1; try discriminate.
      injection E1 as <-. apply fresh_log in F.
      eapply grows_trans; [apply grows_same; exact F|eapply grows_cons; reflexivity].
    + destruct (process f m s) as [[x s2]| |] eqn:EP; cbn [rbind] in E1; try discriminate.
      injection E1 as <-. eauto.
    + eauto.
  - intros m s x s' H. cbn [process] in H. apply IHw in H.
    eapply grows_trans; [|exact H]. eapply grows_cons; reflexivity.
  - intros mt st0 sl s s' H. cbn [update] in H.
    destruct (process f (-1) s) as [[x s1]| |] eqn:EP; cbn [rbind] in H; try discriminate.
    eapply grows_trans; [exact (IHp _ _ _ _ EP)|].
    destruct (mt =? 0); [injection H as <-; apply grows_refl|].
    destruct (_ && _); [injection H as <-; eapply grows_cons; reflexivity|].
    destruct sl; [injection H as <-; apply grows_refl|].
    apply IHu in H. exact H.
Qed.

Lemma ids_app : forall a b, ids (a ++ b) = ids a ++ ids b.
Proof. induction a as [|[] a IH]; simpl; intros; auto; now rewrite IH. Qed.
Lemma grows_ids : forall s s', grows s s' -> (length (ids (log s)) <= length (ids (log s')))%nat.
Proof. intros s s' [l ->]. rewrite ids_app, app_length. lia. Qed.
