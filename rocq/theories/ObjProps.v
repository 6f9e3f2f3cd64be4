(** * Objects: freezing (C73), properties and prototypes (C74), enumeration (C75) *)
From Coq Require Import ZArith List Bool Lia PeanoNat.
Import ListNotations.
Require Import Verif.TreeModel Verif.TreeSpec Verif.TreeProps Verif.ObjModel Verif.ObjSpec Verif.ObjProofs Verif.ObjProofs2 Verif.ObjProofs3 Verif.ObjProofs4 Verif.ObjProofs5 Verif.ObjProofs6.
Local Open Scope nat_scope.

Definition is_array (s : st) (o : nat) : bool := match nth_error (objs s) o with Some b => match els b with Some _ => true | None => false end | None => false end.
Definition lists_values (x : op) : bool := match x with OValues _ => true | _ => false end.
Definition any_freeze (x : op) : bool := match x with OFreeze _ _ _ _ => true | _ => false end.

(** ** C74: properties and prototypes *)

(** A property reads as that of the first object of the line of prototypes that has it. *)
Theorem read_first s o l k : wf s -> line s o l -> exists_obj s o ->
  match first_own s l k with
  | Some v => exists f, read s o k = Ok (v, f)
  | None => k <> str_length -> read s o k = if frozen s o && read_check s o && negb (debug_key k) then Err else Ok (VUndef, false)
  end.
Proof.
  intros W L HO. unfold read, frozen, read_check. unfold exists_obj in HO. destruct (nth_error (objs s) o) as [b|] eqn:E; [|apply nth_error_None in E; lia].
  rewrite (look_line s o l k W L HO), first_place_own. destruct (first_place s l k) as [c|]; cbn [option_map].
  - exists (snd (get_cell s c)). now rewrite <- surjective_pairing.
  - intros N. destruct (keqb k str_length) eqn:K; [apply keqb_eq in K; congruence|]. reflexivity.
Qed.
(** length, when no object of the line has a property of this name: the number of elements of an array, the number of the
    object's own properties otherwise. *)
Theorem read_length s o l : wf s -> line s o l -> exists_obj s o -> first_own s l str_length = None ->
  exists n, read s o str_length = Ok (VNum (Z.of_nat n), false) /\
    if is_array s o then forall i, i < n <-> at_val s (PElem o i) <> None
    else exists ks, NoDup ks /\ length ks = n /\ forall k, In k ks <-> own s o k <> None.
Proof.
  intros W L HO F. unfold read, is_array, own, at_val. cbn [at_place]. unfold exists_obj in HO. destruct (nth_error (objs s) o) as [b|] eqn:E; [|apply nth_error_None in E; lia].
  rewrite (look_line s o l _ W L HO). rewrite first_place_own in F. destruct (first_place s l str_length) as [c|]; [discriminate|].
  replace (keqb str_length str_length) with true by reflexivity. destruct (els b) as [es|].
  - exists (length es). split; [reflexivity|]. intros i. rewrite <- nth_error_Some. destruct (nth_error es i); cbn; intuition congruence.
  - exists (length (props b)). split; [reflexivity|]. exists (map ek (props b)). split; [exact (wf_keys s W o b E)|]. split; [apply map_length|].
    intros k. pose proof (find_key_none k (props b)) as X. destruct (find_key k (props b)) as [c|] eqn:K; cbn.
    + apply find_key_in in K as (e & A & B & _). split; [discriminate|]. intros _. rewrite <- B. now apply in_map.
    + split; [|congruence]. intros Q. exfalso. now apply X.
Qed.
(** As long as Object.setPrototypeOf is not used every object has its line of prototypes, and reading ends. *)
Theorem line_there h o : (forall x, In x h -> sets_proto x = false) -> exists l, line (run start h) o l.
Proof.
  intros H. apply downward_line. apply run_downward.
  - apply not_true_is_false. intros X. apply existsb_exists in X as (x & A & B). rewrite H in B by assumption. discriminate.
  - intros [|x] p E; discriminate.
Qed.
Theorem read_ends h o k : (forall x, In x h -> sets_proto x = false) -> read (run start h) o k <> Crash.
Proof.
  intros H. pose proof (run_wf h start start_wf) as W. destruct (line_there h o H) as (l & L). unfold read.
  destruct (nth_error (objs (run start h)) o) as [b|] eqn:E; [|discriminate]. rewrite (look_line _ o l k W L) by (eapply nth_lt; exact E).
  destruct (first_place _ l k); [discriminate|]. destruct (keqb k str_length); [discriminate|]. destruct (_ && _); discriminate.
Qed.
(** o.k = e: if it may be set it is, and nothing else changes; otherwise the assignment is refused and nothing changes. *)
Theorem set_property s o k e x : wf s -> eval s e = Ok x ->
  let (s', r) := step s (OSet o k e) in
  if may_set s o k then r = Done /\ only_at s s' (PProp o k) /\ own s' o k = Some (fst x) else r = Failed /\ s' = s.
Proof.
  intros W HE. cbn [step]. rewrite HE. cbn [with_val]. unfold ok. rewrite <- (assign_key_result s o k x).
  destruct (assign_key s o k x) as [s' [|]] eqn:E; cbn [fst snd]; (split; [reflexivity|]); [now apply assign_key_only|now apply assign_key_false in E].
Qed.
(** o.k += e and the like. *)
Theorem update_property s o k f e x y z : wf s -> read s o k = Ok x -> eval s e = Ok y -> f x y = Some z ->
  let (s', r) := step s (OUpd o k f e) in
  if may_set s o k then r = Done /\ only_at s s' (PProp o k) /\ own s' o k = Some (fst z) else r = Failed /\ s' = s.
Proof.
  intros W HR HE HF. cbn [step]. rewrite HR, HE. cbn [with_val]. rewrite HF. unfold ok. rewrite <- (assign_key_result s o k z).
  destruct (assign_key s o k z) as [s' [|]] eqn:E; cbn [fst snd]; (split; [reflexivity|]); [now apply assign_key_only|now apply assign_key_false in E].
Qed.
(** delete o.k: an own property goes, nothing else changes. *)
Theorem delete_property s o k : wf s -> exists_obj s o -> frozen s o = false ->
  let (s', r) := step s (ODel o k) in r = Done /\ only_at s s' (PProp o k) /\ own s' o k = None.
Proof.
  intros W HO F. unfold exists_obj in HO. unfold frozen in F. cbn [step]. destruct (nth_error (objs s) o) as [b|] eqn:E; [|apply nth_error_None in E; lia]. rewrite F.
  split; [reflexivity|].
  assert (P : forall q, at_place (set_obj s o (mkO (del_ent k (props b)) (proto b) false (nomod b) (rdchk b) (els b))) q =
     match q with PProp o' k' => if (o' =? o) && keqb k k' then None else at_place s q | _ => at_place s q end).
  { intros q. erewrite place_set_obj by (try eassumption; reflexivity). destruct q as [o' k'|a i|y]; auto. destruct (Nat.eqb_spec o' o) as [->|N]; cbn [andb]; [|reflexivity].
    cbn [props]. rewrite find_del_ent. destruct (keqb k k'); [reflexivity|]. cbn [at_place]. now rewrite E. }
  split; [split|].
  - intros q HQ. apply val_same; [|reflexivity]. rewrite P. destruct q as [o' k'|a i|y]; auto. destruct (Nat.eqb_spec o' o) as [->|N]; cbn [andb]; [|reflexivity].
    destruct (keqb k k') eqn:K; [|reflexivity]. apply keqb_eq in K. congruence.
  - intros o'. eapply parent_set_obj_same; [exact E|reflexivity].
  - unfold own, at_val. now rewrite P, Nat.eqb_refl, keqb_refl.
Qed.
(** o.k++: changes the property of the object of the line that holds it, unless its value is marked frozen; none, and it fails. *)
Theorem increment_property s o l k g : wf s -> line s o l -> exists_obj s o ->
  let (s', r) := step s (OInc o k g) in
  match holder s l k with
  | None => r = Failed /\ s' = s
  | Some h => forall v f, read s o k = Ok (v, f) -> own s h k = Some v /\
      if f then r = Failed /\ s' = s
      else apart s (PProp h k) -> only_at s s' (PProp h k) /\ own s' h k = Some (fst (g v)) /\ r = if snd (g v) then Done else Failed
  end.
Proof.
  intros W L HO. unfold exists_obj in HO. cbn [step]. unfold read. destruct (nth_error (objs s) o) as [b|] eqn:E; [|apply nth_error_None in E; lia].
  rewrite (look_line s o l k W L HO). pose proof (holder_place s l k) as HP. destruct (holder s l k) as [h|].
  - destruct HP as (HI & HP & HN). destruct (first_place s l k) as [c|]; [|congruence]. unfold inc_cell. destruct (get_cell s c) as [v0 f0] eqn:EC.
    assert (OV : own s h k = Some v0) by (unfold own, at_val; rewrite HP; cbn [option_map]; now rewrite EC).
    destruct f0; [intros v f X; injection X as <- <-; auto|]. destruct (g v0) as [v' r'] eqn:EG. intros v f X. injection X as <- <-. split; [exact OV|]. intros A. rewrite EG. cbn [fst snd].
    destruct (set_cell_only s c (v', false) _ W HP A) as [X Y]. split; [exact X|]. split; [exact Y|]. destruct r'; reflexivity.
  - rewrite HP. auto.
Qed.
(** Assigning a variable or an element of an array. *)
Theorem set_variable s y e x : wf s -> eval s e = Ok x -> y < length (vars s) ->
  let (s', r) := step s (OVar y e) in r = Done /\ only_at s s' (PVar y) /\ at_val s' (PVar y) = Some (fst x).
Proof.
  intros W HE HY. cbn [step]. rewrite HE. cbn [with_val]. destruct (nth_error (vars s) y) as [c|] eqn:E; [|apply nth_error_None in E; lia].
  split; [reflexivity|]. apply set_cell_only; auto. now apply wf_vars.
Qed.
Theorem set_element s a i e x : wf s -> eval s e = Ok x -> at_val s (PElem a i) <> None -> apart s (PElem a i) ->
  let (s', r) := step s (OElem a i e) in r = Done /\ only_at s s' (PElem a i) /\ at_val s' (PElem a i) = Some (fst x).
Proof.
  intros W HE HY A. cbn [step]. rewrite HE. cbn [with_val]. destruct (at_place s (PElem a i)) as [c|] eqn:E; [|unfold at_val in HY; rewrite E in HY; cbn in HY; congruence].
  pose proof E as E'. cbn [at_place] in E. destruct (nth_error (objs s) a) as [b|]; [|discriminate]. destruct (els b) as [l|]; [|discriminate]. rewrite E. split; [reflexivity|].
  now apply set_cell_only.
Qed.
(** Object.create(p): a new object without properties of its own, whose prototype is p; nothing else changes. *)
Theorem create_object s p : match p with Some p => exists_obj s p | None => True end ->
  let (s', r) := step s (OCreate p) in
  r = Done /\ length (objs s') = S (length (objs s)) /\ parent s' (length (objs s)) = p /\ (forall q, at_val s' q = at_val s q) /\
  (forall o, exists_obj s o -> parent s' o = parent s o).
Proof.
  intros HP. cbn [step]. assert (X : match p with Some p => p <? length (objs s) | None => true end = true) by (destruct p; [now apply Nat.ltb_lt|reflexivity]).
  rewrite X. split; [reflexivity|]. cbn [objs]. rewrite app_length, Nat.add_1_r. split; [reflexivity|]. rewrite parent_app_obj, Nat.eqb_refl. split; [reflexivity|]. split.
  - intros q. apply val_same; [|reflexivity]. rewrite place_app_obj. destruct s as [cs os vs]. cbn [objs cells vars props els find_key].
    destruct q as [o k|a i|y]; [destruct (Nat.eqb_spec o (length os)) as [->|]|destruct (Nat.eqb_spec a (length os)) as [->|]|]; try reflexivity;
      cbn [at_place objs]; rewrite (proj2 (nth_error_None _ _)) by lia; reflexivity.
  - intros o HO. unfold exists_obj in HO. rewrite parent_app_obj. destruct (Nat.eqb_spec o (length (objs s))); [lia|]. destruct s. reflexivity.
Qed.
(** Object.setPrototypeOf(o, p) for a p that has properties. *)
Theorem set_prototype s o p : exists_obj s o -> exists_obj s p -> p <> o -> enum s p <> [] ->
  let (s', r) := step s (OProto o p) in
  r = Done /\ parent s' o = Some p /\ (forall q, at_val s' q = at_val s q) /\ (forall o', o' <> o -> parent s' o' = parent s o').
Proof.
  intros HO HP N HE. unfold exists_obj in *. cbn [step]. destruct (nth_error (objs s) o) as [b|] eqn:E; [|apply nth_error_None in E; lia].
  unfold enum in HE. destruct (nth_error (objs s) p) as [c|] eqn:EP; [|now contradiction HE]. destruct (props c) as [|e r]; [now contradiction HE|].
  apply Nat.eqb_neq in N. rewrite N. cbn [negb andb]. split; [reflexivity|]. split; [erewrite parent_set_obj, Nat.eqb_refl by exact E; reflexivity|]. split.
  - intros q. apply val_same; [|reflexivity]. erewrite place_set_obj by (try eassumption; reflexivity). destruct q as [o' k'|a i|y]; auto.
    destruct (Nat.eqb_spec o' o) as [->|]; [|reflexivity]. cbn [props at_place]. now rewrite E.
  - intros o' N'. erewrite parent_set_obj by exact E. apply Nat.eqb_neq in N'. now rewrite N'.
Qed.
(** Object.assign(o, src): o gets the properties of src; nothing else changes. *)
Lemma assign_all_ok l : forall s o, exists_obj s o -> frozen s o = false -> forallb een l = true -> NoDup (map ek l) ->
  exists s', assign_all s o l = (s', true) /\ cells s' = cells s /\ forall p, at_place s' p =
    match p with PProp o' k => if o' =? o then match find_key k l with Some c => Some c | None => at_place s p end else at_place s p | _ => at_place s p end.
Proof.
  induction l as [|e l IH]; intros s o HO F S0 N; cbn [assign_all].
  - exists s. split; [reflexivity|]. split; [reflexivity|]. intros [o' k|a i|y]; cbn [find_key]; auto. destruct (o' =? o); reflexivity.
  - cbn [forallb] in S0. apply andb_prop in S0 as [-> S1]. cbn [map] in N. inversion N as [|? ? N1 N2]; subst. unfold exists_obj in HO. 
    assert (F0 := F). unfold frozen in F. destruct (nth_error (objs s) o) as [b|] eqn:E; [|apply nth_error_None in E; lia].
    destruct (insert s o (ek e) (ec e)) as [s1 r] eqn:EI. assert (r = true) by (unfold insert in EI; rewrite E, F in EI; cbn [andb] in EI; congruence). subst r.
    pose proof (insert_cells _ _ _ _ _ _ EI) as (C1 & C2 & C3).
    destruct (IH s1 o) as (s' & -> & CE & P); auto.
    { unfold exists_obj. congruence. }
    { apply insert_true in EI as (b' & E' & _ & ->). assert (b' = b) by congruence. subst. rewrite (proj1 (frozen_set_obj s o b _ o E)), Nat.eqb_refl. exact F. }
    exists s'. split; [reflexivity|]. split; [congruence|]. intros p. rewrite P. destruct p as [o' k|a i|y]; try (rewrite (insert_place _ _ _ _ _ _ EI); reflexivity).
    rewrite (insert_place _ _ _ _ _ _ EI). destruct (Nat.eqb_spec o' o) as [->|]; cbn [andb]; [|reflexivity]. cbn [find_key].
    destruct (keqb (ek e) k) eqn:K; [|reflexivity]. apply keqb_eq in K. subst k. rewrite (proj2 (find_key_none _ _) N1). reflexivity.
Qed.
(** A history without Object.assign and Object.values never makes two names of one value: no assignment to one place is
    seen at another. *)
Theorem values_apart h p : (forall x, In x h -> sharing x = false) -> wf (run start h) /\ apart (run start h) p.
Proof.
  intros H. split; [apply run_wf, start_wf|]. apply run_apart; [apply start_wf| |intros; apply start_apart].
  apply not_true_is_false. intros X. apply existsb_exists in X as (x & A & B). rewrite H in B by assumption. discriminate.
Qed.
Theorem history_wf h : wf (run start h).
Proof. apply run_wf, start_wf. Qed.

Theorem assign_object h o src : let s := run start h in exists_obj s o -> exists_obj s src -> frozen s o = false ->
  let (s', r) := step s (OAssign o src) in
  r = Done /\ (forall k, own s' o k = match own s src k with Some v => Some v | None => own s o k end) /\
  (forall p, match p with PProp o' _ => o' <> o | _ => True end -> at_val s' p = at_val s p).
Proof.
  intros s HO HS F. assert (W : wf s) by apply history_wf. assert (SH : all_objs shown s) by (apply run_shown; intros [|x] b E; discriminate).
  cbn [step]. pose proof HO as HO'. pose proof HS as HS'. unfold exists_obj in HO', HS'.
  destruct (nth_error (objs s) o) as [b0|] eqn:E0; [|apply nth_error_None in E0; lia]. destruct (nth_error (objs s) src) as [b|] eqn:E; [|apply nth_error_None in E; lia].
  destruct (assign_all_ok (props b) s o HO F) as (s' & EA & CE & P); [exact (SH _ _ E)|eapply wf_keys; eassumption|]. unfold ok. rewrite EA. cbn [fst snd]. split; [reflexivity|].
  assert (G : forall c, get_cell s' c = get_cell s c) by (intros c; unfold get_cell; now rewrite CE). split.
  - intros k. unfold own, at_val. rewrite P, Nat.eqb_refl. cbn [at_place]. rewrite E. destruct (find_key k (props b)); cbn [option_map]; [now rewrite G|].
    destruct (match nth_error (objs s) o with Some b => _ | None => None end); cbn [option_map]; [now rewrite G|reflexivity].
  - intros p HP. apply val_same; [|intros; now rewrite G]. rewrite P. destruct p as [o' k|a i|y]; auto. apply Nat.eqb_neq in HP. now rewrite HP.
Qed.
(** Object.values(o): a new array of the values, in the order of the names. *)
Theorem values_array h o : let s := run start h in exists_obj s o ->
  let (s', r) := step s (OValues o) in
  r = Done /\ (forall i k, nth_error (enum s o) i = Some k -> at_val s' (PElem (length (objs s)) i) = own s o k) /\
  (forall i, length (enum s o) <= i -> at_val s' (PElem (length (objs s)) i) = None) /\
  (forall p, match p with PElem a _ => a <> length (objs s) | _ => True end -> at_val s' p = at_val s p).
Proof.
  intros s HO. assert (W : wf s) by apply history_wf. assert (SH : all_objs shown s) by (apply run_shown; intros [|x] b E; discriminate).
  cbn [step]. unfold exists_obj in HO. destruct (nth_error (objs s) o) as [b|] eqn:E; [|apply nth_error_None in E; lia]. split; [reflexivity|].
  assert (F : enum s o = map ek (props b)).
  { unfold enum. rewrite E. specialize (SH _ _ E). unfold shown in SH. clear - SH. induction (props b) as [|e l IH]; cbn in *; [reflexivity|].
    apply andb_prop in SH as [-> SH]. cbn. f_equal. now apply IH. }
  rewrite F. set (s' := mkS _ _ _). assert (PE : forall i, at_place s' (PElem (length (objs s)) i) = nth_error (map ec (props b)) i).
  { intros i. unfold s'. rewrite place_app_obj, Nat.eqb_refl. reflexivity. }
  repeat split.
  - intros i k H. unfold own, at_val. rewrite PE. cbn [at_place]. rewrite E. rewrite nth_error_map in *. destruct (nth_error (props b) i) as [e|] eqn:EI; [|discriminate].
    cbn [option_map] in *. injection H as <-. rewrite find_key_ent; [reflexivity|eapply wf_keys; eassumption|]. eapply nth_error_In; exact EI.
  - intros i H. rewrite map_length in H. unfold at_val. rewrite PE, (proj2 (nth_error_None _ _)); [reflexivity|]. now rewrite map_length.
  - intros p HP. apply val_same; [|reflexivity]. unfold s'. rewrite place_app_obj. destruct s as [cs os vs]. cbn [objs cells vars] in *. destruct p as [o' k|a i|y]; auto.
    + destruct (Nat.eqb_spec o' (length os)) as [->|]; [|reflexivity]. cbn [props find_key at_place objs]. rewrite (proj2 (nth_error_None _ _)) by lia. reflexivity.
    + apply Nat.eqb_neq in HP. now rewrite HP.
Qed.

(** Departures.  p = {a: 1}; o = Object.create(p); o.a++ changes p.a. *)
Definition ka : key := [97%Z]. Definition kb : key := [98%Z].
Definition plus1 (v : val) : val * bool := match v with VNum z => (VNum (z + 1), true) | _ => (v, false) end.
Theorem increment_inherited_refuted : ~ forall h o k g, (forall x, In x h -> sharing x = false /\ sets_proto x = false) ->
  forall o', o' <> o -> own (fst (step (run start h) (OInc o k g))) o' k = own (run start h) o' k.
Proof.
  intros H. specialize (H [OCreate None; OSet 0 ka (ELit (VNum 1)); OCreate (Some 0)] 1 ka plus1).
  assert (A : 0 <> 1) by lia. specialize (H ltac:(intros x [<-|[<-|[<-|[]]]]; split; reflexivity) 0 A). vm_compute in H. discriminate.
Qed.
(** Object.assign(o, src) shares the values: src.a++ changes o.a. *)
Theorem assign_shares_refuted : ~ forall h o src k g, let s := fst (step (run start h) (OAssign o src)) in
  o <> src -> own (fst (step s (OInc src k g))) o k = own s o k.
Proof.
  intros H. specialize (H [OCreate None; OSet 0 ka (ELit (VNum 1)); OCreate None] 1 0 ka plus1 ltac:(lia)). vm_compute in H. discriminate.
Qed.
(** Object.setPrototypeOf(o, p) with an empty p takes the prototype of p: what p gets later is not inherited. *)
Theorem set_prototype_empty_refuted : ~ forall h o p, exists_obj (run start h) o -> exists_obj (run start h) p -> p <> o ->
  parent (fst (step (run start h) (OProto o p))) o = Some p.
Proof.
  intros H. specialize (H [OCreate None; OCreate None] 0 1 ltac:(cbv; lia) ltac:(cbv; lia) ltac:(lia)). vm_compute in H. discriminate.
Qed.
(** Object.setPrototypeOf can close a cycle: then a missing property is looked up for ever. *)
Theorem cycle_refuted : ~ forall h o k, read (run start h) o k <> Crash.
Proof.
  intros H. apply (H [OCreate None; OSet 0 ka (ELit (VNum 1)); OCreate (Some 0); OSet 1 ka (ELit (VNum 1)); OProto 0 1] 0 kb). vm_compute. reflexivity.
Qed.

(** ** C73: Object.freeze *)
Lemma run_app s h h' : run s (h ++ h') = run (run s h) h'.
Proof. unfold run. apply fold_left_app. Qed.
Lemma no_elem_shared h : (forall x, In x h -> lists_values x = false) ->
  forall o k c a i, at_place (run start h) (PProp o k) = Some c -> at_place (run start h) (PElem a i) <> Some c.
Proof.
  assert (G : forall h s, wf s -> (forall x, In x h -> lists_values x = false) -> (forall o k c a i, at_place s (PProp o k) = Some c -> at_place s (PElem a i) <> Some c) ->
    forall o k c a i, at_place (run s h) (PProp o k) = Some c -> at_place (run s h) (PElem a i) <> Some c).
  { clear h. induction h as [|x h IH]; intros s W HX A; [exact A|]. cbn [run fold_left]. apply IH; [now apply step_wf|intros; apply HX; now right|].
    intros o k c a i H1 H2. assert (LV := HX x (or_introl eq_refl)). destruct (sharing x) eqn:SX.
    - destruct x; try discriminate. cbn [step] in H1, H2. destruct (nth_error (objs s) o0) as [b0|]; [|now apply (A o k c a i)]. destruct (nth_error (objs s) src) as [b|] eqn:EB; [|now apply (A o k c a i)].
      unfold ok in H1, H2. cbn [fst] in H1, H2. destruct (assign_all s o0 (props b)) as [s1 r] eqn:E. cbn [fst] in H1, H2. apply assign_all_places in E as (_ & _ & _ & _ & E).
      apply E in H2 as [H2|(e & _ & _ & H2)]; [|discriminate]. apply E in H1 as [H1|(e & I1 & -> & _)]; [now apply (A o k c a i)|].
      apply (A src (ek e) (ec e) a i); [|exact H2]. cbn [at_place]. rewrite EB. apply find_key_ent; [eapply wf_keys; eassumption|exact I1].
    - pose proof (step_plain s x W SX) as PL. pose proof H2 as H2'. apply PL in H1 as [H1|[_ H1]]; [|apply H1 in H2; discriminate].
      apply PL in H2 as [H2|[H2 _]]; [now apply (A o k c a i)|]. apply (place_lt _ _ _ W) in H1. lia. }
  intros HX. apply (G h start); [apply start_wf|exact HX|]. intros [|o] k c a i H; discriminate.
Qed.
Lemma run_solid h : forall s o, wf s -> solid s o -> (forall s1 x h1, h = h1 ++ x :: s1 -> quiet (run s h1) o x) ->
  solid (run s h) o /\ forall k, own (run s h) o k = own s o k.
Proof.
  induction h as [|x h IH]; intros s o W S0 Q; [auto|]. cbn [run fold_left]. destruct (step_solid s x o W S0 (Q h x [] eq_refl)) as [S1 V1].
  destruct (IH (fst (step s x)) o (step_wf s x W) S1) as [S2 V2].
  - intros s1 y h1 ->. apply (Q s1 y (x :: h1)). reflexivity.
  - split; [exact S2|]. intros k. unfold run in V2. rewrite V2. apply V1.
Qed.
(** After Object.freeze(o, true, false) nothing that follows changes a property of o, takes one away or adds one, as long
    as no history uses Object.assign or Object.values and o is not given to Object.freeze again. *)
Theorem freeze_holds h o r h2 : let s := run start h in
  exists_obj s o -> is_array s o = false -> no_modify s o = false ->
  (forall x, In x (h ++ h2) -> sharing x = false) -> (forall x, In x h2 -> freezes o x = false) ->
  forall k, own (run s (OFreeze o true false r :: h2)) o k = own s o k.
Proof.
  intros s HO HA NM HS HF k. assert (W : wf s) by apply history_wf. unfold exists_obj in HO. unfold is_array in HA. unfold no_modify in NM.
  destruct (nth_error (objs s) o) as [b|] eqn:E; [|apply nth_error_None in E; lia]. assert (EL : els b = None) by (destruct (els b); [discriminate|reflexivity]).
  destruct (freeze_solid s o b r W E EL NM) as [S0 V0].
  { apply no_elem_shared. intros x I. assert (SX := HS x (in_or_app _ _ _ (or_introl I))). destruct x; try reflexivity; discriminate. }
  change (run s (OFreeze o true false r :: h2)) with (run (fst (step s (OFreeze o true false r))) h2).
  destruct (run_solid h2 _ o (step_wf s _ W) S0) as [_ V].
  - intros s1 x h1 ->. assert (SX : sharing x = false) by (apply HS; rewrite !in_app_iff; cbn; auto). assert (FX : freezes o x = false) by (apply HF; rewrite !in_app_iff; cbn; auto).
    destruct x; cbn [quiet]; auto; try discriminate. cbn [freezes] in FX. apply Nat.eqb_neq in FX. split; [exact FX|]. intros k'.
    change (run (fst (step s (OFreeze o true false r))) h1) with (run s (OFreeze o true false r :: h1)). unfold s. rewrite <- run_app. apply (values_apart (h ++ OFreeze o true false r :: h1) (PProp o k')).
    intros y I. rewrite in_app_iff in I. cbn [In] in I. destruct I as [I|[<-|I]]; [apply HS; rewrite !in_app_iff; auto|reflexivity|apply HS; rewrite !in_app_iff; auto].
  - rewrite V. exact (proj2 (V0 (PProp o k))).
Qed.
(** The same with Object.assign used freely, if nothing at all is frozen or thawed afterwards. *)
Theorem freeze_holds_assign h o r h2 : let s := run start h in
  exists_obj s o -> is_array s o = false -> no_modify s o = false ->
  (forall x, In x (h ++ h2) -> lists_values x = false) -> (forall x, In x h2 -> any_freeze x = false) ->
  forall k, own (run s (OFreeze o true false r :: h2)) o k = own s o k.
Proof.
  intros s HO HA NM HS HF k. assert (W : wf s) by apply history_wf. unfold exists_obj in HO. unfold is_array in HA. unfold no_modify in NM.
  destruct (nth_error (objs s) o) as [b|] eqn:E; [|apply nth_error_None in E; lia]. assert (EL : els b = None) by (destruct (els b); [discriminate|reflexivity]).
  destruct (freeze_solid s o b r W E EL NM) as [S0 V0].
  { apply no_elem_shared. intros x I. apply HS. apply in_or_app. now left. }
  change (run s (OFreeze o true false r :: h2)) with (run (fst (step s (OFreeze o true false r))) h2).
  destruct (run_solid h2 _ o (step_wf s _ W) S0) as [_ V].
  - intros s1 x h1 ->. assert (SX : lists_values x = false) by (apply HS; rewrite !in_app_iff; cbn; auto). assert (FX : any_freeze x = false) by (apply HF; rewrite !in_app_iff; cbn; auto).
    destruct x; cbn [quiet]; auto; discriminate.
  - rewrite V. exact (proj2 (V0 (PProp o k))).
Qed.
(** While an object is frozen, in whatever way, it has the names it has: whatever happens, but for Object.freeze of it. *)
Theorem frozen_names s o h : frozen s o = true -> (forall x, In x h -> freezes o x = false) ->
  frozen (run s h) o = true /\ forall k, own (run s h) o k = None <-> own s o k = None.
Proof.
  revert s. induction h as [|x h IH]; intros s F HX; [split; [exact F|tauto]|]. cbn [run fold_left].
  pose proof (step_keeps s x o (HX x (or_introl eq_refl))) as K. unfold keeps_obj in K. unfold frozen in F. destruct (nth_error (objs s) o) as [b|] eqn:E; [|discriminate].
  destruct (K b eq_refl) as (b' & E' & K1 & _ & _ & _ & K5 & _). destruct (IH (fst (step s x))) as [A B].
  - unfold frozen. rewrite E'. congruence.
  - intros y I. apply HX. now right.
  - split; [exact A|]. intros k. unfold run in B. rewrite B. unfold own, at_val. cbn [at_place]. rewrite E, E'. specialize (K5 F).
    assert (X : find_key k (props b') = None <-> find_key k (props b) = None) by (rewrite !find_key_none, K5; tauto).
    destruct (find_key k (props b')), (find_key k (props b)); cbn; intuition discriminate.
Qed.
(** What a frozen object refuses: taking a property away, a new one, and, without modifyok, any assignment. *)
Theorem frozen_refuses s o k e : frozen s o = true ->
  step s (ODel o k) = (s, Failed) /\ (own s o k = None \/ no_modify s o = true -> fst (step s (OSet o k e)) = s /\ snd (step s (OSet o k e)) <> Done).
Proof.
  intros F. split.
  - unfold frozen in F. cbn [step]. destruct (nth_error (objs s) o) as [b|]; [|discriminate]. now rewrite F.
  - intros H. cbn [step]. destruct (eval s e) as [x| |]; cbn [with_val fst snd]; try (split; [reflexivity|discriminate]). unfold ok. cbn [fst snd].
    pose proof (assign_key_result s o k x) as R. assert (M : may_set s o k = false).
    { unfold may_set. rewrite F. cbn [negb orb]. destruct H as [-> | ->]; cbn [negb andb]; rewrite ?andb_false_r; reflexivity. }
    rewrite M in R. destruct (assign_key s o k x) as [s' rr] eqn:EA. cbn [snd] in R. subst rr. apply assign_key_false in EA as ->. split; [reflexivity|discriminate].
Qed.
(** With the read check a property that is not there cannot be read, but for length and the names of the debug keys. *)
Theorem frozen_read_check s o l k : wf s -> line s o l -> frozen s o = true -> read_check s o = true -> first_own s l k = None ->
  k <> str_length -> debug_key k = false -> read s o k = Err.
Proof.
  intros W L F R H N D. pose proof (read_first s o l k W L) as X. rewrite H, F, R, D in X. apply X; [|exact N].
  unfold frozen in F. destruct (nth_error (objs s) o) eqn:E; [|discriminate]. eapply nth_lt; exact E.
Qed.
(** Thawing, Object.freeze(o, false, true), undoes it: properties can be assigned, taken away and changed in place again. *)
Theorem thaw_restores s o r k : wf s -> exists_obj s o -> is_array s o = false -> no_modify s o = true ->
  let s' := fst (step s (OFreeze o false true r)) in
  may_set s' o k = true /\ frozen s' o = false /\ own s' o k = own s o k /\
  forall l g v, line s' o l -> own s' o k = Some v -> snd (g v) = true -> snd (step s' (OInc o k g)) = Done.
Proof.
  intros W HO HA NM s'. unfold exists_obj in HO. unfold is_array in HA. unfold no_modify in NM.
  destruct (nth_error (objs s) o) as [b|] eqn:E; [|apply nth_error_None in E; lia]. assert (EL : els b = None) by (destruct (els b); [discriminate|reflexivity]).
  assert (W' : wf s') by (now apply step_wf). unfold s' in *. clear s'. cbn [step] in *. rewrite E, NM, EL in *. cbn [negb Bool.eqb fst] in *. set (s1 := set_obj s o _) in *.
  destruct (flag_places false (map ec (props b)) s1) as (A & B & C & D & F). set (s2 := flag_cells s1 false (map ec (props b))) in *.
  assert (FR : frozen s2 o = false) by (unfold frozen; rewrite B; unfold s1; cbn [set_obj objs]; now rewrite nth_upd_eq).
  assert (P1 : forall p, at_place s1 p = at_place s p).
  { intros p. unfold s1. erewrite place_set_obj by first [eassumption | now rewrite EL | reflexivity]. destruct p as [o' k'|a i|y]; auto.
    destruct (Nat.eqb_spec o' o) as [->|]; [|reflexivity]. cbn. now rewrite E. }
  assert (L2 : o < length (objs s2)) by (rewrite B; unfold s1; cbn [set_obj objs]; now rewrite upd_length).
  split; [|split; [exact FR|split]].
  - unfold may_set. rewrite FR, (proj2 (Nat.ltb_lt _ _) L2). reflexivity.
  - unfold own, at_val. rewrite A, P1. destruct (at_place s (PProp o k)); cbn [option_map]; [|reflexivity]. now rewrite F.
  - intros l g v L HV HG. destruct (nth_error (objs s2) o) as [b2|] eqn:E2; [|apply nth_error_None in E2; lia].
    assert (LK : exists c, at_place s (PProp o k) = Some c /\ look s2 o k = Found c).
    { rewrite (look_line s2 o l k W' L L2). unfold own, at_val in HV. rewrite A, P1 in HV. destruct (at_place s (PProp o k)) as [c|] eqn:EP; [|discriminate]. exists c. split; [reflexivity|].
      inversion L; subst; cbn [first_place]; rewrite A, P1, EP; reflexivity. }
    destruct LK as (c & EP & ->). unfold own, at_val in HV. rewrite A, P1, EP in HV. cbn [option_map] in HV. unfold inc_cell.
    assert (FL : snd (get_cell s2 c) = false).
    { unfold s2. rewrite flag_flags. pose proof (place_lt _ _ _ W EP) as LT. destruct (in_dec Nat.eq_dec c (map ec (props b))) as [I|I]; [destruct (_ <? _); reflexivity|]. exfalso. apply I.
      cbn [at_place] in EP. rewrite E in EP. apply find_key_in in EP as (e & He & _ & <-). now apply in_map. }
    destruct (get_cell s2 c) as [v0 f]. cbn [fst snd] in *. subst f. injection HV as ->. destruct (g v) as [v' rr]. cbn [snd] in *. now rewrite HG.
Qed.

(** Departures.  The array of Object.values holds the frozen values themselves. *)
Theorem freeze_values_refuted : ~ forall h o r h2, let s := run start h in
  exists_obj s o -> is_array s o = false -> no_modify s o = false -> (forall x, In x h2 -> any_freeze x = false) ->
  forall k, own (run s (OFreeze o true false r :: h2)) o k = own s o k.
Proof.
  intros H. specialize (H [OCreate None; OSet 0 ka (ELit (VNum 1))] 0 true [OValues 0; OElem 1 0 (ELit (VNum 7))] ltac:(cbv; lia) eq_refl eq_refl
    ltac:(intros x [<-|[<-|[]]]; reflexivity) ka). vm_compute in H. discriminate.
Qed.
(** A copy made by Object.assign shares the values: freezing and thawing the copy lets the frozen object be changed. *)
Theorem freeze_assign_thaw_refuted : ~ forall h o r h2, let s := run start h in
  exists_obj s o -> is_array s o = false -> no_modify s o = false -> (forall x, In x (h ++ h2) -> lists_values x = false) -> (forall x, In x h2 -> freezes o x = false) ->
  forall k, own (run s (OFreeze o true false r :: h2)) o k = own s o k.
Proof.
  intros H. specialize (H [OCreate None; OSet 0 ka (ELit (VNum 1)); OCreate None; OAssign 1 0] 0 true [OFreeze 1 true false true; OFreeze 1 false true true; OInc 0 ka plus1] ltac:(cbv; lia) eq_refl eq_refl
    ltac:(intros x; cbn; intuition; subst; reflexivity) ltac:(intros x [<-|[<-|[<-|[]]]]; reflexivity) ka). vm_compute in H. discriminate.
Qed.
(** Freezing in two steps, Object.freeze(o, false, false) first, leaves what was added in between open to ++. *)
Theorem freeze_twice_refuted : ~ forall h o r h2, let s := run start h in
  exists_obj s o -> is_array s o = false -> (forall x, In x (h ++ h2) -> sharing x = false) -> (forall x, In x h2 -> freezes o x = false) ->
  forall k, own (run s (OFreeze o true false r :: h2)) o k = own s o k.
Proof.
  intros H. specialize (H [OCreate None; OFreeze 0 false false true; OSet 0 ka (ELit (VNum 1))] 0 true [OInc 0 ka plus1] ltac:(cbv; lia) eq_refl
    ltac:(intros x; cbn; intuition; subst; reflexivity) ltac:(intros x [<-|[]]; reflexivity) ka). vm_compute in H. discriminate.
Qed.
(** The flag goes with copies of a value: y = o.a; y++ fails. *)
Theorem frozen_copy_refuted : ~ forall h y g, let s := run start h in at_val s (PVar y) = Some (VNum 1) -> g (VNum 1) = (VNum 2, true) -> snd (step s (OVarInc y g)) = Done.
Proof.
  intros H. specialize (H [OCreate None; OSet 0 ka (ELit (VNum 1)); OFreeze 0 true false true; ONewVar; OVar 0 (EProp 0 ka)] 0 plus1 eq_refl eq_refl). vm_compute in H. discriminate.
Qed.
(** A frozen array: its elements can be assigned. *)
Theorem freeze_array_refuted : ~ forall h a i v, let s := run start h in frozen s a = true -> no_modify s a = true -> at_val (fst (step s (OElem a i (ELit v)))) (PElem a i) = at_val s (PElem a i).
Proof.
  intros H. specialize (H [OArray [VNum 1]; OFreeze 0 true false true] 0 0 (VNum 2) eq_refl eq_refl). vm_compute in H. discriminate.
Qed.

(** ** C75: enumeration *)

(** Object.keys(o), and the names for-in goes through: those of o in order, then those it inherits; each once, all there are. *)
Theorem keys_listed h o : let s := run start h in (forall x, In x h -> sets_proto x = false) -> (forall x, In x h -> Forall cstring (keys_of x)) -> exists_obj s o ->
  exists mine rest, object_keys s o = Some (mine ++ rest) /\ ascending strcmp mine /\ (forall k, In k mine <-> own s o k <> None) /\
    NoDup (mine ++ rest) /\ forall k, In k (mine ++ rest) <-> has s o k.
Proof.
  intros s HP HC HO. assert (W : wf s) by apply history_wf. destruct (line_there h o HP) as (l & L). fold s in L.
  assert (SH : all_objs shown s) by (apply run_shown; intros [|x] b E; discriminate).
  assert (OR : all_objs ordered s) by (apply run_ordered; [now apply Forall_forall|intros [|x] b E; discriminate]).
  destruct (keys_line s o l W L HO) as (r & A & B & C). exists (enum s o), r. split; [exact A|]. split; [now apply ordered_enum|]. split; [intros k; now apply shown_enum|].
  split; [exact B|]. intros k. rewrite C. unfold has. split; intros (x & X & Y).
  - exists x. split; [now apply (inherits_line s o l)|now apply shown_enum].
  - exists x. split; [now apply (inherits_line s o l) in X|now apply shown_enum].
Qed.
(** hasOwnProperty. *)
Theorem has_own_property s o k : has_own s o k = true <-> own s o k <> None.
Proof.
  unfold has_own, own, at_val. cbn [at_place]. destruct (nth_error (objs s) o) as [b|]; [|cbn; intuition congruence]. destruct (find_key k (props b)); cbn; intuition congruence.
Qed.
(** for (k in o) body, whatever the body does: the names visited are among those at the start, in that order, each at most
    once, and each is there, own or inherited, when it is visited. *)
Theorem for_in_visits X (body : st * X -> key -> (st * X) * bool) h o x s' x' log : let s := run start h in
  (forall y, In y h -> sets_proto y = false) -> exists_obj s o ->
  for_in (noting body) o (s, (x, [])) = Some (s', (x', log)) ->
  exists ks, object_keys s o = Some ks /\ part (map snd log) ks /\ NoDup (map snd log) /\ Forall (fun tk => has (fst tk) o (snd tk)) log.
Proof.
  intros s HP HO H. assert (W : wf s) by apply history_wf. destruct (line_there h o HP) as (l & L). fold s in L.
  destruct (keys_line s o l W L HO) as (r & A & B & C). unfold for_in in H. cbn [fst] in H. rewrite A in H. apply visits_notes in H as (new & -> & D & E).
  exists (enum s o ++ r). cbn [app]. split; [exact A|]. split; [exact D|]. split; [eapply part_nodup; eassumption|exact E].
Qed.
(** A name there at the start that the body never takes away is visited, unless the body leaves the loop. *)
Theorem for_in_complete X (body : st * X -> key -> (st * X) * bool) h o x s' x' log k : let s := run start h in
  (forall y, In y h -> sets_proto y = false) -> exists_obj s o ->
  (forall w k', snd (body w k') = true) -> (forall w k', has (fst w) o k -> has (fst (fst (body w k'))) o k) ->
  has s o k -> for_in (noting body) o (s, (x, [])) = Some (s', (x', log)) -> In k (map snd log).
Proof.
  intros s HP HO G K HK H. assert (W : wf s) by apply history_wf. destruct (line_there h o HP) as (l & L). fold s in L.
  assert (SH : all_objs shown s) by (apply run_shown; intros [|y] b E; discriminate).
  destruct (keys_line s o l W L HO) as (r & A & B & C). unfold for_in in H. cbn [fst] in H. rewrite A in H. eapply visits_all; [exact G|exact K| |exact HK|exact H].
  apply C. destruct HK as (y & Y1 & Y2). exists y. split; [now apply (inherits_line s o l)|now apply shown_enum].
Qed.
(** The loop ends, whatever history the body makes of its arguments, if it uses no Object.setPrototypeOf. *)
Theorem for_in_ends X (acts : X -> key -> list op) (next : X -> key -> X * bool) h o x :
  (forall y, In y h -> sets_proto y = false) -> (forall y k z, In z (acts y k) -> sets_proto z = false) -> exists_obj (run start h) o ->
  for_in (fun w k => ((run (fst w) (acts (snd w) k), fst (next (snd w) k)), snd (next (snd w) k))) o (run start h, x) <> None.
Proof.
  intros HP HA HO. set (s := run start h) in *. assert (W : wf s) by apply history_wf. destruct (line_there h o HP) as (l & L). fold s in L.
  destruct (keys_line s o l W L HO) as (r & A & _). unfold for_in. cbn [fst]. rewrite A.
  assert (NP : forall l, (forall z, In z l -> sets_proto z = false) -> existsb sets_proto l = false).
  { intros m HM. apply not_true_is_false. intros Y. apply existsb_exists in Y as (z & Z1 & Z2). rewrite HM in Z2 by assumption. discriminate. }
  apply (visits_end _ (fun t => wf t /\ downward t /\ exists_obj t o)).
  - intros t (T1 & T2 & T3). destruct (downward_line t o T2) as (m & M). exists m. split; [exact M|]. eapply line_length; eassumption.
  - intros t y k (T1 & T2 & T3). cbn [fst snd]. split; [now apply run_wf|split].
    + apply run_downward; [|exact T2]. apply NP. apply HA.
    + clear - T3. unfold exists_obj in *. generalize (acts y k) as m. intros m. revert t T3. induction m as [|z m IH]; intros t T3; [exact T3|]. cbn [run fold_left]. apply IH.
      pose proof (step_cells_grow t z) as [_ G]. lia.
  - split; [exact W|split; [|exact HO]]. apply run_downward; [now apply NP|]. intros [|y] p E; discriminate.
Qed.
(** A body that does not change objects is run for every name. *)
Theorem for_in_pure X (body : st * X -> key -> (st * X) * bool) h o x : let s := run start h in
  (forall y, In y h -> sets_proto y = false) -> exists_obj s o -> (forall w k, fst (fst (body w k)) = fst w /\ snd (body w k) = true) ->
  exists ks x', object_keys s o = Some ks /\ for_in (noting body) o (s, (x, [])) = Some (s, (x', map (pair s) ks)).
Proof.
  intros s HP HO HB. assert (W : wf s) by apply history_wf. destruct (line_there h o HP) as (l & L). fold s in L.
  assert (SH : all_objs shown s) by (apply run_shown; intros [|y] b E; discriminate).
  destruct (keys_line s o l W L HO) as (r & A & B & C). exists (enum s o ++ r). unfold for_in. cbn [fst]. rewrite A.
  destruct (visits_pure body o HB s (enum s o ++ r) x []) as (x' & E).
  - intros k K. apply C in K as (y & Y1 & Y2). exists y. split; [now apply (inherits_line s o l)|now apply shown_enum].
  - exists l. split; [exact L|]. eapply line_length; eassumption.
  - exists x'. split; [reflexivity|exact E].
Qed.
(** Departure: Object.keys lists inherited names as well. *)
Theorem keys_own_refuted : ~ forall h o ks k, let s := run start h in object_keys s o = Some ks -> In k ks -> has_own s o k = true.
Proof.
  intros H. specialize (H [OCreate None; OSet 0 ka (ELit (VNum 1)); OCreate (Some 0)] 1 [ka] ka eq_refl (or_introl eq_refl)). vm_compute in H. discriminate.
Qed.

(** ** Examples *)
(* p = {a: 1, b: 2}; o = Object.create(p); o.b = 3; y *)
Definition ex : list op := [OCreate None; OSet 0 kb (ELit (VNum 2)); OSet 0 ka (ELit (VNum 1)); OCreate (Some 0); OSet 1 kb (ELit (VNum 3)); ONewVar].
Example ex_read : line (run start ex) 1 [1; 0] /\ read (run start ex) 1 kb = Ok (VNum 3, false) /\ read (run start ex) 1 ka = Ok (VNum 1, false) /\ holder (run start ex) [1; 0] ka = Some 0.
Proof. repeat split. econstructor; [reflexivity|]. constructor. reflexivity. Qed.
Example ex_keys : object_keys (run start ex) 0 = Some [ka; kb] /\ object_keys (run start ex) 1 = Some [kb; ka].
Proof. split; reflexivity. Qed.
Example ex_hyps : (forall x, In x ex -> sharing x = false /\ sets_proto x = false /\ lists_values x = false /\ Forall cstring (keys_of x)) /\
  exists_obj (run start ex) 1 /\ is_array (run start ex) 1 = false /\ no_modify (run start ex) 1 = false.
Proof.
  split; [|repeat split; cbv; lia]. intros x; cbn; intuition; subst; repeat constructor.
Qed.
(* freeze it, and try *)
Example ex_freeze : own (run start (ex ++ [OFreeze 1 true false true; OSet 1 kb (ELit (VNum 9)); OInc 1 kb plus1; ODel 1 kb; OSet 1 ka (ELit (VNum 9))])) 1 kb = Some (VNum 3) /\
  own (run start (ex ++ [OFreeze 1 true true true; OSet 1 kb (ELit (VNum 9)); ODel 1 kb; OSet 1 ka (ELit (VNum 9))])) 1 kb = Some (VNum 9) /\
  own (run start (ex ++ [OFreeze 1 true true true; OSet 1 ka (ELit (VNum 9))])) 1 ka = None /\
  read (run start (ex ++ [OFreeze 1 true false true])) 1 [99%Z] = Err /\
  own (run start (ex ++ [OFreeze 1 true false true; OFreeze 1 false true true; OInc 1 kb plus1])) 1 kb = Some (VNum 4).
Proof. repeat split. Qed.
(* for (k in o) delete o.b *)
Example ex_for_in : let body (w : st * unit) (k : key) := ((fst (step (fst w) (ODel 0 kb)), tt), true) in
  option_map (fun w => map snd (snd (snd w))) (for_in (noting body) 0 (run start ex, (tt, []))) = Some [ka].
Proof. reflexivity. Qed.
Example ex_assign : let s := fst (step (run start (ex ++ [OCreate None])) (OAssign 2 0)) in own s 2 ka = Some (VNum 1) /\ own s 2 kb = Some (VNum 2) /\
  at_val (fst (step s (OValues 1))) (PElem 3 0) = Some (VNum 3).
Proof. repeat split. Qed.
