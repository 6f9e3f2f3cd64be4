(** * Properties and objects: prototypes, what one step changes *)
From Coq Require Import ZArith List Bool Lia PeanoNat.
Import ListNotations.
Require Import Verif.TreeModel Verif.TreeSpec Verif.ObjModel Verif.ObjSpec Verif.ObjProofs Verif.ObjProofs2 Verif.ObjProofs3.
Local Open Scope nat_scope.

(** ** the line of prototypes *)
Lemma line_unique s o l l' : line s o l -> line s o l' -> l = l'.
Proof.
  intros H. revert l'. induction H as [o H|o p l H L IH]; intros l' H'; inversion H'; subst; try congruence.
  f_equal. apply IH. congruence.
Qed.
Lemma line_suffix s o l : line s o l -> forall x, In x l -> exists l', line s x l' /\ length l' <= length l.
Proof.
  intros H. induction H as [o H|o p l H L IH]; intros x HX.
  - destruct HX as [<-|[]]. exists [o]. split; [now constructor|auto].
  - destruct HX as [<-|HX]; [exists (o :: l); split; [econstructor; eassumption|auto]|].
    destruct (IH x HX) as (l' & A & B). exists l'. cbn. auto.
Qed.
Lemma line_nodup s o l : line s o l -> NoDup l.
Proof.
  intros H. induction H as [o H|o p l H L IH]; [repeat constructor; auto|]. constructor; [|exact IH]. intros HX.
  destruct (line_suffix s p l L o HX) as (l' & A & B). assert (l' = o :: l) by (eapply line_unique; [exact A|econstructor; eassumption]).
  subst. cbn in B. lia.
Qed.
Lemma line_exists s o l : wf s -> line s o l -> o < length (objs s) -> forall x, In x l -> x < length (objs s).
Proof.
  intros W H. induction H as [o H|o p l H L IH]; intros HO x HX.
  - destruct HX as [<-|[]]. exact HO.
  - destruct HX as [<-|HX]; [exact HO|]. apply IH; [|exact HX]. eapply wf_proto; eassumption.
Qed.
Lemma line_length s o l : wf s -> line s o l -> o < length (objs s) -> length l <= length (objs s).
Proof.
  intros W H HO. rewrite <- (seq_length (length (objs s)) 0). apply NoDup_incl_length; [eapply line_nodup; exact H|].
  intros x HX. apply in_seq. pose proof (line_exists s o l W H HO x HX). lia.
Qed.
Lemma own_exists s o k v : own s o k = Some v -> o < length (objs s).
Proof.
  unfold own, at_val. cbn [at_place]. destruct (nth_error (objs s) o) as [b|] eqn:E; [|discriminate]. intros _. eapply nth_lt; exact E.
Qed.
Fixpoint first_place (s : st) (l : list nat) (k : key) : option nat :=
  match l with [] => None | o :: r => match at_place s (PProp o k) with Some c => Some c | None => first_place s r k end end.
Lemma first_place_own s l k : first_own s l k = option_map (fun c => fst (get_cell s c)) (first_place s l k).
Proof. induction l as [|o l IH]; cbn [first_own first_place]; [reflexivity|]. unfold own at 1, at_val. destruct (at_place s (PProp o k)); cbn; [reflexivity|exact IH]. Qed.
Lemma holder_place s l k : match holder s l k with Some h => In h l /\ at_place s (PProp h k) = first_place s l k /\ first_place s l k <> None | None => first_place s l k = None end.
Proof.
  induction l as [|o l IH]; cbn [holder first_place]; [reflexivity|]. unfold own, at_val. destruct (at_place s (PProp o k)) eqn:E; cbn [option_map].
  - repeat split; [now left|exact E|congruence].
  - destruct (holder s l k); [|exact IH]. destruct IH as (A & B). split; [now right|exact B].
Qed.
Lemma lookup_line s o l k : line s o l -> forall fuel, length l <= fuel ->
  lookup fuel s o k = match first_place s l k with Some c => Found c | None => Missing end.
Proof.
  intros H. induction H as [o H|o p l H L IH]; intros [|fuel] F; cbn [length] in F; try lia; cbn [lookup first_place at_place]; unfold parent in H;
    destruct (nth_error (objs s) o) as [b|] eqn:E; try discriminate; try reflexivity.
  - rewrite H. destruct (find_key k (props b)); reflexivity.
  - rewrite H. destruct (find_key k (props b)); [reflexivity|]. apply IH. lia.
Qed.
Lemma look_line s o l k : wf s -> line s o l -> o < length (objs s) -> look s o k = match first_place s l k with Some c => Found c | None => Missing end.
Proof. intros W H HO. unfold look. apply lookup_line; [exact H|]. pose proof (line_length s o l W H HO). lia. Qed.

(** Every object has a line as long as prototypes are only given by Object.create. *)
Definition sets_proto (x : op) : bool := match x with OProto _ _ => true | _ => false end.
Definition downward (s : st) : Prop := forall o p, parent s o = Some p -> p < o.
Lemma step_downward s x : sets_proto x = false -> downward s -> downward (fst (step s x)).
Proof.
  intros HX D o p H. destruct (step_parent s x o) as [E|[(q & -> & _)|(q & -> & -> & E & L)]]; [rewrite E in H; now apply D|discriminate|].
  rewrite E in H. injection H as <-. exact L.
Qed.
Lemma run_downward l s : existsb sets_proto l = false -> downward s -> downward (run s l).
Proof.
  revert s. induction l as [|x l IH]; intros s HX D; [exact D|]. cbn [existsb] in HX. apply orb_false_iff in HX as [H1 H2].
  cbn [run fold_left]. apply IH; [assumption|]. now apply step_downward.
Qed.
Lemma downward_line s o : downward s -> exists l, line s o l.
Proof.
  intros D. induction o as [o IH] using lt_wf_ind. destruct (parent s o) as [p|] eqn:E.
  - destruct (IH p (D _ _ E)) as (l & L). exists (o :: l). econstructor; eassumption.
  - exists [o]. now constructor.
Qed.

(** ** what one step changes *)
Lemma val_same s s' p : at_place s' p = at_place s p -> (forall c, at_place s p = Some c -> fst (get_cell s' c) = fst (get_cell s c)) -> at_val s' p = at_val s p.
Proof. intros A B. unfold at_val. rewrite A. destruct (at_place s p) as [c|]; cbn; [f_equal; now apply B|reflexivity]. Qed.
Lemma assign_key_only s o k x s' : wf s -> assign_key s o k x = (s', true) -> only_at s s' (PProp o k) /\ at_val s' (PProp o k) = Some (fst x).
Proof.
  intros W E. pose proof (assign_key_cells _ _ _ _ _ E) as (HC & _). split; [split|].
  - intros q HQ. apply val_same.
    + rewrite (assign_key_place _ _ _ _ _ q E). destruct q as [o' k'|a i|y]; auto. destruct (Nat.eqb_spec o' o) as [->|N]; cbn [andb]; [|reflexivity].
      destruct (keqb k k') eqn:K; [|reflexivity]. apply keqb_eq in K. congruence.
    + intros c HC'. unfold get_cell. rewrite HC. apply (place_lt _ _ _ W) in HC'. now rewrite nth_error_app1.
  - intros o'. apply assign_key_true in E. eapply insert_parent in E. rewrite E. reflexivity.
  - unfold at_val. rewrite (assign_key_place _ _ _ _ _ _ E), Nat.eqb_refl, keqb_refl. cbn [andb option_map]. unfold get_cell. rewrite HC, nth_error_app2, Nat.sub_diag by lia.
    reflexivity.
Qed.
Lemma set_cell_only s c x p : wf s -> at_place s p = Some c -> apart s p -> only_at s (set_cell s c x) p /\ at_val (set_cell s c x) p = Some (fst x).
Proof.
  intros W HC A. pose proof (place_lt _ _ _ W HC) as L. split; [split|].
  - intros q HQ. apply val_same; [reflexivity|]. intros d HD. rewrite get_set by assumption. destruct (Nat.eqb_spec d c) as [->|N]; [|reflexivity].
    exfalso. apply HQ. now apply (A q c).
  - reflexivity.
  - unfold at_val. rewrite place_set_cell, HC. cbn [option_map]. rewrite get_set, Nat.eqb_refl by assumption. reflexivity.
Qed.
(* when a property may be assigned *)
Definition may_set (s : st) (o : nat) (k : key) : bool :=
  (o <? length (objs s)) && (negb (frozen s o) || (negb (no_modify s o) && match own s o k with Some _ => true | None => false end)).
Lemma assign_key_result s o k x : snd (assign_key s o k x) = may_set s o k.
Proof.
  unfold assign_key, new_cell, insert, may_set, frozen, no_modify, own, at_val. cbn [at_place objs].
  destruct (Nat.ltb_spec o (length (objs s))) as [L|L].
  - destruct (nth_error (objs s) o) as [b|] eqn:E; [|apply nth_error_None in E; lia]. cbn [andb].
    destruct (frz b), (nomod b), (find_key k (props b)); cbn; reflexivity.
  - rewrite (proj2 (nth_error_None _ _)) by assumption. reflexivity.
Qed.
(* enumerable keys and flags of objects *)
Lemma frozen_set_obj s o b b' o' : nth_error (objs s) o = Some b ->
  frozen (set_obj s o b') o' = (if o' =? o then frz b' else frozen s o') /\ no_modify (set_obj s o b') o' = (if o' =? o then nomod b' else no_modify s o') /\
  read_check (set_obj s o b') o' = (if o' =? o then rdchk b' else read_check s o').
Proof.
  intros E. pose proof (nth_lt _ _ _ E) as L. apply Nat.ltb_lt in L. unfold frozen, no_modify, read_check. cbn [set_obj objs]. rewrite nth_upd, L, andb_true_r.
  destruct (o' =? o); auto.
Qed.
