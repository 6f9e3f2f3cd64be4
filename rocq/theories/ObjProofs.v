(** * Properties and objects: basic lemmas *)
From Coq Require Import ZArith List Bool Lia PeanoNat.
Import ListNotations.
Require Import Verif.TreeModel Verif.TreeSpec Verif.ObjModel Verif.ObjSpec.
Local Open Scope nat_scope.

Lemma keqb_eq a b : keqb a b = true <-> a = b.
Proof. unfold keqb. destruct (key_dec a b); split; congruence. Qed.
Lemma keqb_ne a b : keqb a b = false <-> a <> b.
Proof. unfold keqb. destruct (key_dec a b); split; congruence. Qed.
Lemma keqb_refl a : keqb a a = true.
Proof. now apply keqb_eq. Qed.
Lemma keqb_sym a b : keqb a b = keqb b a.
Proof. unfold keqb. destruct (key_dec a b), (key_dec b a); congruence. Qed.

Lemma upd_length {A} (l : list A) i x : length (upd l i x) = length l.
Proof. revert i. induction l as [|y l IH]; intros [|i]; cbn; auto. Qed.
Lemma nth_upd_eq {A} (l : list A) i x : i < length l -> nth_error (upd l i x) i = Some x.
Proof. revert i. induction l as [|y l IH]; intros [|i] H; cbn in *; auto; try lia. apply IH. lia. Qed.
Lemma nth_upd_ne {A} (l : list A) i j x : j <> i -> nth_error (upd l i x) j = nth_error l j.
Proof. revert i j. induction l as [|y l IH]; intros [|i] [|j] H; cbn; auto; try congruence. Qed.
Lemma nth_upd {A} (l : list A) i j x : nth_error (upd l i x) j = if (j =? i) && (i <? length l) then Some x else nth_error l j.
Proof.
  destruct (Nat.eqb_spec j i) as [->|N]; cbn [andb]; [|now apply nth_upd_ne].
  destruct (Nat.ltb_spec i (length l)); [now apply nth_upd_eq|]. 
  rewrite (proj2 (nth_error_None l i)) by lia. apply nth_error_None. rewrite upd_length. lia.
Qed.
Lemma nth_lt {A} (l : list A) i x : nth_error l i = Some x -> i < length l.
Proof. intros H. apply nth_error_Some. congruence. Qed.

Lemma get_set s c x d : c < length (cells s) -> get_cell (set_cell s c x) d = if d =? c then x else get_cell s d.
Proof.
  intros H. unfold get_cell, set_cell. cbn [cells]. rewrite nth_upd. rewrite (proj2 (Nat.ltb_lt _ _) H), andb_true_r.
  destruct (d =? c); [destruct x|]; reflexivity.
Qed.
Lemma get_set_ne s c x d : d <> c -> get_cell (set_cell s c x) d = get_cell s d.
Proof. intros H. unfold get_cell, set_cell. cbn [cells]. now rewrite nth_upd_ne. Qed.
Lemma get_app s ys d : d < length (cells s) -> forall os vs, get_cell (mkS (cells s ++ ys) os vs) d = get_cell s d.
Proof. intros H os vs. unfold get_cell. cbn [cells]. now rewrite nth_error_app1. Qed.
Lemma get_objs c os vs os' vs' d : get_cell (mkS c os vs) d = get_cell (mkS c os' vs') d.
Proof. reflexivity. Qed.

Lemma find_key_in k l c : find_key k l = Some c -> exists e, In e l /\ ek e = k /\ ec e = c.
Proof.
  induction l as [|e l IH]; cbn; [discriminate|]. destruct (keqb (ek e) k) eqn:E.
  - intros H. injection H as <-. apply keqb_eq in E. exists e. auto.
  - intros H. destruct (IH H) as (e' & A & B). exists e'. auto.
Qed.
Lemma find_key_none k l : find_key k l = None <-> ~ In k (map ek l).
Proof.
  induction l as [|e l IH]; cbn; [tauto|]. destruct (keqb (ek e) k) eqn:E.
  - apply keqb_eq in E. split; [discriminate|]. intros H. exfalso. auto.
  - apply keqb_ne in E. rewrite IH. tauto.
Qed.
Lemma find_key_ent l e : NoDup (map ek l) -> In e l -> find_key (ek e) l = Some (ec e).
Proof.
  induction l as [|x l IH]; cbn; [tauto|]. intros N [->|H].
  - now rewrite keqb_refl.
  - inversion N as [|? ? N1 N2]; subst. destruct (keqb (ek x) (ek e)) eqn:E; [|auto].
    apply keqb_eq in E. exfalso. apply N1. rewrite E. now apply in_map.
Qed.
Lemma find_put k c l k' : find_key k l = None -> find_key k' (put k c l) = if keqb k k' then Some c else find_key k' l.
Proof.
  induction l as [|e l IH]; cbn; [auto|]. destruct (keqb (ek e) k) eqn:E; [discriminate|]. intros H.
  destruct (strcmp k (ek e) <? 0)%Z; cbn [find_key ek ec]; [reflexivity|]. rewrite IH by assumption.
  destruct (keqb (ek e) k') eqn:E1; [|reflexivity]. apply keqb_eq in E1. subst. rewrite keqb_sym, E. reflexivity.
Qed.
Lemma find_replace k c l k' : find_key k' (replace_ent k c l) = if keqb k k' then option_map (fun _ => c) (find_key k l) else find_key k' l.
Proof.
  induction l as [|e l IH]; cbn; [destruct (keqb k k'); auto|]. fold (replace_ent k c l).
  destruct (keqb (ek e) k) eqn:E; cbn [ek ec].
  - apply keqb_eq in E. subst. rewrite IH. destruct (keqb (ek e) k') eqn:E; reflexivity.
  - rewrite IH. destruct (keqb (ek e) k') eqn:E1; [|reflexivity]. destruct (keqb k k') eqn:E2; [|reflexivity].
    apply keqb_eq in E1, E2. apply keqb_ne in E. congruence.
Qed.
Lemma find_put_ent k c l k' : find_key k' (put_ent k c l) = if keqb k k' then Some c else find_key k' l.
Proof.
  unfold put_ent. destruct (find_key k l) eqn:E; [|now apply find_put].
  rewrite find_replace. destruct (keqb k k'); [now rewrite E|reflexivity].
Qed.
Lemma find_del_ent k l k' : find_key k' (del_ent k l) = if keqb k k' then None else find_key k' l.
Proof.
  induction l as [|e l IH]; cbn; [destruct (keqb k k'); auto|]. destruct (keqb (ek e) k) eqn:E; cbn [negb find_key].
  - fold (del_ent k l). rewrite IH. apply keqb_eq in E. subst. destruct (keqb (ek e) k'); reflexivity.
  - fold (del_ent k l). rewrite IH. destruct (keqb (ek e) k') eqn:E1; [|reflexivity].
    destruct (keqb k k') eqn:E2; [|reflexivity]. apply keqb_eq in E1, E2. apply keqb_ne in E. congruence.
Qed.
Lemma replace_keys k c l : map ek (replace_ent k c l) = map ek l.
Proof. induction l as [|e l IH]; cbn; [auto|]. unfold replace_ent in IH. rewrite IH. destruct (keqb (ek e) k); reflexivity. Qed.
Lemma put_keys_in k c l x : In x (map ek (put k c l)) <-> x = k \/ In x (map ek l).
Proof.
  induction l as [|e l IH]; cbn; [intuition congruence|]. destruct (strcmp k (ek e) <? 0)%Z; cbn; [intuition congruence|].
  rewrite IH. intuition congruence.
Qed.
Lemma put_nodup k c l : NoDup (map ek l) -> ~ In k (map ek l) -> NoDup (map ek (put k c l)).
Proof.
  induction l as [|e l IH]; cbn; intros N H; [repeat constructor; auto|].
  destruct (strcmp k (ek e) <? 0)%Z; cbn; [constructor; cbn; auto|].
  inversion N; subst. constructor; [|apply IH; auto]. rewrite put_keys_in. intros [X|X]; auto.
Qed.
Lemma put_ent_nodup k c l : NoDup (map ek l) -> NoDup (map ek (put_ent k c l)).
Proof.
  intros N. unfold put_ent. destruct (find_key k l) eqn:E; [now rewrite replace_keys|].
  apply put_nodup; auto. now apply find_key_none.
Qed.
Lemma del_ent_nodup k l : NoDup (map ek l) -> NoDup (map ek (del_ent k l)).
Proof.
  induction l as [|e l IH]; cbn; intros N; [auto|]. inversion N as [|? ? N1 N2]; subst.
  destruct (keqb (ek e) k); cbn; [now apply IH|]. constructor; [|now apply IH].
  intros X. apply N1. apply in_map_iff in X as (y & A & B). apply filter_In in B as [B _]. rewrite <- A. now apply in_map.
Qed.

(** Places after the basic changes *)
Lemma place_set_cell s c x p : at_place (set_cell s c x) p = at_place s p.
Proof. reflexivity. Qed.
Lemma place_set_obj s o b b' p : nth_error (objs s) o = Some b -> els b' = els b ->
  at_place (set_obj s o b') p = match p with
    | PProp o' k => if o' =? o then find_key k (props b') else at_place s p
    | _ => at_place s p end.
Proof.
  intros E HE. pose proof (nth_lt _ _ _ E) as L. apply Nat.ltb_lt in L. destruct p as [o' k|a i|y]; cbn [at_place set_obj objs vars]; [| |reflexivity].
  - rewrite nth_upd, L, andb_true_r. destruct (o' =? o); reflexivity.
  - rewrite nth_upd, L, andb_true_r. destruct (Nat.eqb_spec a o) as [->|N]; [|reflexivity]. now rewrite E, HE.
Qed.
Lemma parent_set_obj s o b b' o' : nth_error (objs s) o = Some b -> parent (set_obj s o b') o' = if o' =? o then proto b' else parent s o'.
Proof.
  intros E. pose proof (nth_lt _ _ _ E) as L. apply Nat.ltb_lt in L. unfold parent. cbn [set_obj objs]. rewrite nth_upd, L, andb_true_r.
  destruct (o' =? o); reflexivity.
Qed.
Lemma parent_set_obj_same s o b b' o' : nth_error (objs s) o = Some b -> proto b' = proto b -> parent (set_obj s o b') o' = parent s o'.
Proof. intros E H. erewrite parent_set_obj by eassumption. destruct (Nat.eqb_spec o' o) as [->|]; [|reflexivity]. unfold parent. now rewrite E. Qed.

Lemma insert_true s o k c s' : insert s o k c = (s', true) -> exists b, nth_error (objs s) o = Some b /\
  frz b && (nomod b || match find_key k (props b) with Some _ => false | None => true end) = false /\
  s' = set_obj s o (mkO (put_ent k c (props b)) (proto b) (frz b) (nomod b) (rdchk b) (els b)).
Proof.
  unfold insert. destruct (nth_error (objs s) o) as [b|]; [|discriminate].
  destruct (frz b && _) eqn:E; [discriminate|]. intros H. injection H as <-. exists b. auto.
Qed.
Lemma insert_false s o k c s' : insert s o k c = (s', false) -> s' = s.
Proof.
  unfold insert. destruct (nth_error (objs s) o) as [b|]; [|now intros H; injection H].
  destruct (frz b && _) eqn:E; [now intros H; injection H|discriminate].
Qed.
Lemma insert_place s o k c s' p : insert s o k c = (s', true) ->
  at_place s' p = (if match p with PProp o' k' => (o' =? o) && keqb k k' | _ => false end then Some c else at_place s p).
Proof.
  intros H. apply insert_true in H as (b & E & _ & ->). erewrite place_set_obj by (try eassumption; reflexivity).
  destruct p as [o' k'|a i|y]; try reflexivity. destruct (Nat.eqb_spec o' o) as [->|N]; cbn [andb]; [|reflexivity].
  cbn [props]. rewrite find_put_ent. cbn [at_place]. rewrite E. reflexivity.
Qed.
Lemma insert_parent s o k c s' o' : insert s o k c = (s', true) -> parent s' o' = parent s o'.
Proof. intros H. apply insert_true in H as (b & E & _ & ->). eapply parent_set_obj_same; [eassumption|reflexivity]. Qed.
Lemma insert_cells s o k c s' r : insert s o k c = (s', r) -> cells s' = cells s /\ vars s' = vars s /\ length (objs s') = length (objs s).
Proof.
  destruct r; intros H; [apply insert_true in H as (b & E & _ & ->)|apply insert_false in H as ->]; auto.
  cbn [set_obj cells vars objs]. rewrite upd_length. auto.
Qed.
