(** C19, C20, C21: arrays. *)
From Coq Require Import ZArith List Bool Lia Permutation.
From Verif Require Import Bits ArrayModel ArraySpec ArrayProofs ArrayProofs2 ArrayProofs3 ArrayProofs4 ArrayProofs5.
Import ListNotations.
Local Open Scope nat_scope.

Section C19.
Variable C : Type.
Variable u : C.
Variable M : nat.
Implicit Types h : list C.

(** ** C19: the mutators.  [holds u h a xs]: the array object [a] has the elements [xs], no holes. *)

Theorem push_appends : forall h a xs vs, holds u h a xs -> length xs + length vs + 24 <= M ->
  exists a', push M a (map Some (seq (length h) (length vs))) = Some (a', length xs + length vs) /\
    holds u (h ++ vs) a' (xs ++ vs).
Proof.
  intros h a xs vs H L. pose proof (holds_len C u h a xs H) as HL. destruct H as (es & R & O & V).
  assert (Le : length es = length xs) by (destruct R as (k & _ & HC); lia).
  destruct (push_ok M a es (map Some (seq (length h) (length vs))) R) as (a' & E & R').
  { rewrite map_length, seq_length. lia. }
  rewrite map_length, seq_length, Le in E. exists a'. split; auto. exists (es ++ map Some (seq (length h) (length vs))).
  split; auto. split; [apply owned_new_end; auto|].
  rewrite view_app, map_app. rewrite view_grow by apply O. rewrite V. f_equal.
  pose proof (view_new C u h vs []) as W. rewrite app_nil_r in W. exact W.
Qed.

Lemma removelast_snoc : forall (A : Type) (l : list A) x, removelast (l ++ [x]) = l.
Proof. intros. apply removelast_last. Qed.

Theorem pop_removes_last : forall h a xs, holds u h a xs ->
  exists a' r, pop a = Some (a', r) /\ holds u h a' (removelast xs) /\
    match r with None => xs = [] | Some p => xs = removelast xs ++ [nth p h u] end.
Proof.
  intros h a xs (es & R & O & V). destruct (view_dense C u h es xs V) as (ps & -> & EX).
  destruct ps as [|p ps] using rev_ind.
  - cbn in EX. subst xs. exists a, None. rewrite pop_nil by auto. split; auto. split; auto. exists []. auto.
  - clear IHps. rewrite map_app in R. cbn [map] in R. destruct (pop_ok a (map Some ps) (Some p) R) as (a' & E & R').
    exists a', (Some p). split; auto. rewrite map_app in EX. cbn [map] in EX. rewrite <- EX, removelast_snoc. split; auto.
    exists (map Some ps). split; auto. rewrite map_app in O. cbn [map] in O. split.
    + rewrite <- (app_nil_r (map Some ps)). apply (owned_sub C h (map Some ps) [Some p] []). rewrite app_nil_r. auto.
    + unfold view. rewrite !map_map. reflexivity.
Qed.

Theorem shift_removes_first : forall h a xs, holds u h a xs ->
  exists h' a' r, shift C u h a = Some (h', a', r) /\ holds u h' a' (tl xs) /\
    match r with None => xs = [] | Some p => xs = nth p h' u :: tl xs end.
Proof.
  intros h a xs (es & R & O & V). destruct (view_dense C u h es xs V) as (ps & -> & EX).
  destruct ps as [|p ps]; cbn [map] in *.
  - subst xs. exists h, a, None. rewrite shift_nil by auto. split; auto. split; auto. exists []. auto.
  - pose proof (shift_ok C u h a (map Some ps) (Some p) R) as (a' & E & R'). eexists _, a', _. split; [exact E|].
    rewrite <- EX. cbn [tl]. split.
    + exists (map Some ps). split; auto. pose proof (owned_sub C h [] [Some p] (map Some ps) O) as O2. cbn [app] in O2.
      split; [apply owned_grow; auto|]. rewrite view_grow by apply O2. unfold view. rewrite !map_map. reflexivity.
    + rewrite app_nth2, Nat.sub_diag by lia. reflexivity.
Qed.

Theorem unshift_prepends : forall h a xs vs, holds u h a xs -> vs <> [] -> length xs + length vs + 24 <= M ->
  exists a', unshift C M a (map Some (seq (length h) (length vs))) = Some (Done (a', length vs + length xs)) /\
    holds u (h ++ vs) a' (vs ++ xs).
Proof.
  intros h a xs vs H NE L. pose proof (holds_len C u h a xs H) as HL. destruct H as (es & R & O & V).
  assert (Le : length es = length xs) by (destruct R as (k & _ & HC); lia).
  assert (NE2 : map (@Some nat) (seq (length h) (length vs)) <> []) by (destruct vs; [congruence|cbn; discriminate]).
  destruct (unshift_ok C M a es _ R NE2) as (a' & E & R').
  { rewrite map_length, seq_length. lia. }
  rewrite map_length, seq_length, Le in E. exists a'. split; auto. eexists. split; [exact R'|].
  split; [apply owned_new_front; auto|].
  rewrite view_app, map_app. rewrite (view_grow C u h vs es) by apply O. rewrite V. f_equal.
  pose proof (view_new C u h vs []) as W. rewrite app_nil_r in W. exact W.
Qed.

Theorem reverse_reverses : forall h a xs, holds u h a xs -> exists a', reverse a = Some a' /\ holds u h a' (rev xs).
Proof.
  intros h a xs (es & R & O & V). destruct (reverse_ok a es R) as (a' & E & R'). exists a'. split; auto. exists (rev es). split; auto.
  split; [eapply owned_perm; [apply ptrs_rev|auto]|]. unfold view in *. rewrite map_rev, V, <- map_rev. reflexivity.
Qed.

Lemma overwrite_map : forall (A B : Type) (f : A -> B) lo hi c l, overwrite lo hi (f c) (map f l) = map f (overwrite lo hi c l).
Proof.
  intros. unfold overwrite. rewrite map_length, map_map. generalize 0. induction l as [|x l IH]; intros o; [reflexivity|].
  cbn [length seq map combine fst snd]. rewrite IH. f_equal. destruct (_ && _)%bool; reflexivity.
Qed.
Theorem fill_overwrites : forall h a xs val s e, holds u h a xs -> val < length h ->
  exists h' a', fill C u h a val s e = Some (h', a') /\ holds u h' a' (spec_fill xs (nth val h u) s e).
Proof.
  intros h a xs val s e (es & R & O & V) L.
  destruct (fill_ok C u h a es val (nth val h u) s e R O L eq_refl) as (h' & a' & es' & E & R' & O' & W).
  exists h', a'. split; auto. exists es'. split; auto. split; auto. rewrite W, V. unfold spec_fillv, spec_fill. rewrite map_length.
  destruct (start_pos _ _); auto. destruct (end_pos _ _); auto. apply overwrite_map.
Qed.

Theorem splice_replaces : forall h a xs s k items, holds u h a xs -> Forall (fun p => p < length h) items ->
  length xs + length items + 24 <= M ->
  exists h' a' b, splice C u M h a s k items = Some (Done (h', a', b)) /\
    holds u h' a' (fst (spec_splice xs s k (map (fun p => nth p h u) items))) /\
    holds u h' b (snd (spec_splice xs s k (map (fun p => nth p h u) items))).
Proof.
  intros h a xs s k items H F L. pose proof (holds_len C u h a xs H) as HL. destruct H as (es & R & O & V).
  assert (Le : length es = length xs) by (destruct R as (q & _ & HC); lia).
  unfold spec_splice. destruct (Z.ltb_spec (Z.of_nat (length xs)) s) as [Hs|Hs].
  - rewrite splice_far with (es := es) by (auto; rewrite Le; auto). exists h, a, empty. split; auto. cbn [fst snd].
    split; [exists es; auto|]. exists []. split; [apply rep_empty|]. split; [split; constructor|reflexivity].
  - destruct (splice_split es s k) as (A & D & T & E & S1 & S2); [lia|].
    rewrite E in *. destruct (splice_parts C u M h a A D T s k items R F) as (OK & _); auto; [lia|].
    rewrite !app_length in *. destruct OK as (a' & b & ES & Ra & Rb); [lia|lia|].
    pose proof (view_prefix C u h A (D ++ T) xs V) as (VA & VDT).
    pose proof (view_prefix C u h D T _ VDT) as (VD & VT).
    rewrite <- sp_start_spec. rewrite <- Le, S1. 
    assert (SC : splice_count (Z.of_nat (length A + (length D + length T))) (Z.of_nat (length A)) k = length D).
    { rewrite <- S1, sp_start_spec. rewrite <- sp_many_spec by lia. rewrite <- sp_start_spec, S1, S2, Nat2Z.id. auto. }
    rewrite SC, Nat2Z.id. cbn [fst snd].
    assert (OA : owned h (A ++ T)) by (eapply owned_sub; eauto).
    exists (h ++ map (rd C u h) items), a', b. split; auto. split.
    + eexists. split; [exact Ra|]. split.
      { pose proof (owned_insert C h (map (rd C u h) items) [] A T OA) as I. rewrite map_length, app_nil_r in I. exact I. }
      destruct OA as (_ & OA). rewrite ptrs_app, Forall_app in OA. destruct OA as (FA & FT).
      rewrite !view_app, !map_app. rewrite (view_grow C u h _ A FA), (view_grow C u h _ T FT). rewrite VA, VT. f_equal. f_equal.
      * pose proof (view_new C u h (map (rd C u h) items) []) as W. rewrite map_length, app_nil_r in W. exact W.
      * f_equal. rewrite Nat.add_comm. clear. revert xs. induction (length A) as [|n IH]; intros xs; cbn [Nat.add skipn]; [rewrite Nat.add_0_r; auto|].
        rewrite Nat.add_succ_r. destruct xs; [rewrite !skipn_nil; auto|]. cbn [skipn]. rewrite <- IH. f_equal.
    + exists D. split; auto.
      assert (OD : owned h D). { destruct O as (O1 & O2). rewrite !ptrs_app in *. apply NoDup_app_iff in O1. destruct O1 as (_ & O1 & _). apply NoDup_app_iff in O1. rewrite !Forall_app in O2. split; [apply O1|apply O2]. }
      split; [apply owned_grow; auto|]. rewrite view_grow by apply OD. exact VD.
Qed.

Theorem element_assignment : forall h a xs n c, holds u h a xs -> n <= length xs -> n + 24 <= M ->
  exists h' a', assign C M h a n c = Some (Done (h', a')) /\ holds u h' a' (firstn n xs ++ c :: skipn (S n) xs).
Proof.
  intros h a xs n c H Hn L. pose proof (holds_len C u h a xs H) as HL. destruct H as (es & R & O & V).
  assert (Le : length es = length xs) by (destruct R as (q & _ & HC); lia).
  destruct (assign_ok C u M h a es n c R O ltac:(lia)) as (h' & a' & es' & E & R' & O' & W). exists h', a'. split; auto.
  exists es'. split; auto. split; auto. rewrite W, V, Le.
  destruct (Nat.ltb_spec n (length xs)).
  - rewrite firstn_map, skipn_map, map_app. reflexivity.
  - assert (n = length xs) by lia. subst n. rewrite Nat.sub_diag. cbn [repeat app].
    rewrite firstn_all, skipn_all2 by lia. rewrite map_app. reflexivity.
Qed.

(** What a script may do is a sequence of such calls, each within the size limit. *)
Fixpoint fits_all (l : list C) (ks : list (call C)) : Prop :=
  match ks with [] => True | k :: r => op_fits M l k /\ fits_all (spec_op l k) r end.

Lemma one_call : forall h a xs k, holds u h a xs -> op_fits M xs k ->
  exists h' a', do_call C u M h a k = Some (h', a') /\ holds u h' a' (spec_op xs k).
Proof.
  intros h a xs k H F. destruct k as [vs| | |vs| |c s e|s n vs|n c]; cbn [do_call spec_op op_fits] in *.
  - destruct (push_appends h a xs vs H F) as (a' & E & H'). rewrite E. cbn [option_map fst]. eauto.
  - destruct (pop_removes_last h a xs H) as (a' & r & E & H' & _). rewrite E. cbn [option_map fst]. eauto.
  - destruct (shift_removes_first h a xs H) as (h' & a' & r & E & H' & _). rewrite E. cbn [option_map fst]. eauto.
  - destruct vs as [|v vs].
    + cbn [length seq map app]. unfold unshift. cbn [length Nat.eqb]. eexists _, _. split; [reflexivity|]. rewrite app_nil_r. auto.
    + destruct (unshift_prepends h a xs (v :: vs) H ltac:(discriminate) F) as (a' & E & H'). rewrite E. eauto.
  - destruct (reverse_reverses h a xs H) as (a' & E & H'). rewrite E. cbn [option_map]. eauto.
  - assert (H2 : holds u (h ++ [c]) a xs).
    { destruct H as (es & R & O & V). exists es. split; auto. split; [apply owned_grow; auto|]. rewrite view_grow by apply O. auto. }
    destruct (fill_overwrites (h ++ [c]) a xs (length h) s e H2) as (h' & a' & E & H'); [rewrite app_length; cbn; lia|].
    rewrite app_nth2, Nat.sub_diag in H' by lia. rewrite E. eauto.
  - assert (H2 : holds u (h ++ vs) a xs).
    { destruct H as (es & R & O & V). exists es. split; auto. split; [apply owned_grow; auto|]. rewrite view_grow by apply O. auto. }
    destruct (splice_replaces (h ++ vs) a xs s n (seq (length h) (length vs)) H2) as (h' & a' & b & E & H' & _).
    { apply Forall_forall. intros p Hp. apply in_seq in Hp. rewrite app_length. lia. }
    { rewrite seq_length. auto. }
    rewrite E. eexists _, _. split; [reflexivity|].
    assert (X : map (fun p => nth p (h ++ vs) u) (seq (length h) (length vs)) = vs).
    { clear. revert h. induction vs as [|v vs IH]; intros h; [reflexivity|]. cbn [length seq map]. f_equal; [rewrite app_nth2, Nat.sub_diag by lia; reflexivity|].
      specialize (IH (h ++ [v])). rewrite app_length, Nat.add_1_r, <- app_assoc in IH. exact IH. }
    rewrite X in H'. auto.
  - destruct F as (F1 & F2). destruct (element_assignment h a xs n c H F1 F2) as (h' & a' & E & H'). rewrite E. eauto.
Qed.

Theorem array_history : forall ks h a xs, holds u h a xs -> fits_all xs ks ->
  exists h' a', do_calls C u M h a ks = Some (h', a') /\ holds u h' a' (fold_left spec_op ks xs) /\
    cnt a' = length (fold_left spec_op ks xs).
Proof.
  induction ks as [|k ks IH]; intros h a xs H F; cbn [do_calls fold_left].
  - exists h, a. split; auto. split; auto. eapply holds_len; eauto.
  - destruct F as (F1 & F2). destruct (one_call h a xs k H F1) as (h1 & a1 & E & H1). rewrite E. apply IH; auto.
Qed.

(** Whatever the calls, also with holes and beyond the size limit: no access outside the block of slots, no
    failed assertion, and no two positions ever share a value. *)
Theorem array_memory_safe : forall ks,
  exists h' a' es', do_calls C u M [] empty ks = Some (h', a') /\ rep a' es' /\ owned h' es'.
Proof.
  intros ks. destruct (do_calls_inv C u M ks [] empty) as (h' & a' & E & (es' & R & O)).
  { exists []. split; [apply rep_empty|split; constructor]. }
  eauto 6.
Qed.
End C19.

(** *** The other side of C19 *)
Definition mk (l : list slot) (n : nat) : arr := mkA l n.
Notation num_heap := [10; 20; 30].
(** shift on an array whose first element is missing moves the elements but keeps the length *)
Theorem shift_hole_refuted : exists (a : arr), rep a [None; Some 0] /\
  exists a', shift nat 0 [10] a = Some ([10], a', None) /\ rep a' [Some 0; None].
Proof. exists (mk [None; Some 0] 2). split; [exists 0; auto|]. eexists. split; [vm_compute; reflexivity|]. exists 0. auto. Qed.
(** unshift without arguments returns 0, not the length *)
Theorem unshift_nothing_refuted : exists (a : arr), rep a [Some 0] /\ unshift nat 1000 a [] = Some (Done (a, 0)).
Proof. exists (mk [Some 0] 1). split; [exists 0; auto|reflexivity]. Qed.
(** splice with a start beyond the end does not insert *)
Theorem splice_beyond_end_refuted : forall (C : Type) (u : C) M h a es s k items, rep a es -> (Z.of_nat (length es) < s)%Z ->
  splice C u M h a s k items = Some (Done (h, a, empty)).
Proof. intros. eapply splice_far; eauto. Qed.
(** push beyond the size limit: the elements are dropped silently *)
Theorem push_limit_refuted : forall M a es v, rep a es -> M <= length es -> push M a [v] = Some (a, length es).
Proof.
  intros M a es v (k & HS & HC) H. unfold push, push_loop. rewrite HC, Nat.add_0_r. destruct (Nat.ltb_spec (length es) M); [lia|]. rewrite HC. reflexivity.
Qed.

(** ** C20: the readers *)
Section C20.
Variable C : Type.
Variable u : C.
Variable M : nat.
Implicit Types h : list C.

(** [view u h es]: what a script reads at the positions 0, 1, ...; None is a hole.
    [cmakes]: either an error (size limit), or a new array with these contents that shares nothing with the
    old heap, which itself is a prefix of the new heap, so the argument arrays are unchanged. *)
Theorem slice_is_slice : forall h a es s e, rep a es -> owned h es ->
  makes C u h (spec_slice (view u h es) s e) (slice C u M h a s e) /\
  (length es + 16 <= M -> exists h' b, slice C u M h a s e = Some (Done (h', b))).
Proof. apply slice_ok. Qed.

Theorem concat_concatenates : forall h a es args vws, rep a es -> owned h es -> Forall2 (carg_ok C u h) args vws ->
  cmakes C u h (view u h es ++ List.concat vws) (concat C u M h a args).
Proof. apply concat_ok. Qed.

Theorem index_of_first : forall eq h a es start, rep a es ->
  index_sub C u false eq h a start =
  Some (match (match start with None => Some 0%Z | Some s => start_pos (Z.of_nat (length es)) s end) with
        | None => (-1)%Z
        | Some s => match find (fun ix => eq (snd ix) && (s <=? Z.of_nat (fst ix))%Z) (present (view u h es)) with
                    | Some ix => Z.of_nat (fst ix) | None => (-1)%Z end
        end).
Proof.
  intros eq h a es start (k & HS & HC). unfold index_sub. rewrite HC.
  assert (OUT : forall s, length es = 0 -> find (fun ix : nat * C => eq (snd ix) && (s <=? Z.of_nat (fst ix))%Z) (present (view u h es)) = None).
  { intros s E. apply length_zero_iff_nil in E. subst es. reflexivity. }
  destruct (Nat.eqb_spec (length es) 0) as [E0|E0].
  { destruct start as [s|]; [destruct (start_pos _ _); auto|]; rewrite OUT; auto. }
  assert (G : forall s, (0 <= s <= Z.of_nat (length es))%Z ->
    find_up C u eq h (sl a) (Z.to_nat s) (length es - Z.to_nat s) =
    Some (match find (fun ix => eq (snd ix) && (s <=? Z.of_nat (fst ix))%Z) (present (view u h es)) with Some ix => Z.of_nat (fst ix) | None => (-1)%Z end)).
  { intros s Hs. destruct (split_at _ es (Z.to_nat s) ltac:(lia)) as (A & B & E & LA). rewrite HS, E, <- app_assoc.
    replace (length (A ++ B) - Z.to_nat s) with (length B) by (rewrite app_length; lia). rewrite <- LA, find_up_ok. f_equal.
    rewrite pres_0, view_app, pres_app, view_len. cbn [Nat.add].
    assert (FA : forall (l1 l2 : list (nat * C)) f, (forall x, In x l1 -> f x = false) -> find f (l1 ++ l2) = find f l2).
    { induction l1 as [|x l1 IH]; intros l2 f Hf; [reflexivity|]. cbn [app find]. rewrite Hf by (left; auto). apply IH. intros y Hy. apply Hf. right; auto. }
    assert (RG : forall l o ix, In ix (pres C o l) -> o <= fst ix < o + length l).
    { induction l as [|[x|] l IH]; intros o ix Hi; [destruct Hi| |].
      - rewrite pres_some in Hi. cbn [length]. destruct Hi as [<-|Hi]; [cbn; lia|]. apply IH in Hi. lia.
      - rewrite pres_none in Hi. cbn [length]. apply IH in Hi. lia. }
    rewrite FA.
    2:{ intros ix Hi. apply RG in Hi. rewrite view_len in Hi. destruct (Z.leb_spec s (Z.of_nat (fst ix))); [lia|]. apply andb_false_r. }
    assert (EF : forall l : list (nat * C), (forall x, In x l -> length A <= fst x) -> find (fun ix => eq (snd ix)) l = find (fun ix => eq (snd ix) && (s <=? Z.of_nat (fst ix))%Z) l).
    { induction l as [|x l IH]; intros Hl; [reflexivity|]. cbn [find]. pose proof (Hl x (or_introl eq_refl)). destruct (Z.leb_spec s (Z.of_nat (fst x))); [|lia].
      rewrite andb_true_r. destruct (eq (snd x)); auto. apply IH. intros y Hy. apply Hl. right; auto. }
    rewrite EF; [reflexivity|]. intros x Hx. apply RG in Hx. lia. }
  destruct start as [s|].
  - rewrite range_start_spec by lia. destruct (start_pos (Z.of_nat (length es)) s) as [s'|] eqn:ES; auto. apply start_pos_range in ES. apply G; lia.
  - apply G. lia.
Qed.
(** lastIndexOf gives the last place.  Its start argument, documented as the place to search back from,
    makes no difference as long as it is in range. *)
Theorem last_index_of_last : forall eq h a es start, rep a es ->
  match start with None => True | Some s => (- Z.of_nat (length es) <= s <= Z.of_nat (length es))%Z end ->
  index_sub C u true eq h a start =
  Some (match find (fun ix => eq (snd ix)) (rev (present (view u h es))) with Some ix => Z.of_nat (fst ix) | None => (-1)%Z end).
Proof.
  intros eq h a es start (k & HS & HC) ST. unfold index_sub. rewrite HC. destruct (Nat.eqb_spec (length es) 0) as [E0|E0].
  { apply length_zero_iff_nil in E0. subst es. reflexivity. }
  rewrite HS. destruct start as [s|]; [ | apply find_down_ok]. unfold range_start.
  destruct (Z.of_nat (length es) <? s)%Z eqn:E1; [apply Z.ltb_lt in E1; lia | ].
  destruct (s <? 0)%Z eqn:E2.
  - destruct (Z.of_nat (length es) + s <? 0)%Z eqn:E3; [apply Z.ltb_lt in E3; lia | apply find_down_ok].
  - rewrite E2. apply find_down_ok.
Qed.
(** So a place after the start is found: the start argument is not obeyed. *)
Theorem last_index_of_start_refuted : forall h a p, rep a [Some p; Some p] ->
  index_sub C u true (fun _ => true) h a (Some 0%Z) = Some 1%Z.
Proof. intros h a p (k & HS & HC). unfold index_sub. rewrite HC, HS. reflexivity. Qed.

Theorem map_maps : forall f h a es, rep a es -> owned h es ->
  makes C u h (spec_map f (view u h es)) (map_cmd C u M f h a) /\
  (length es + 17 <= M -> exists h' b, map_cmd C u M f h a = Some (Done (h', b))).
Proof. apply map_ok. Qed.

Theorem filter_filters : forall f h a es, rep a es -> length es + 17 <= M ->
  exists b bs, filter_cmd C u M f h a = Some (Done b) /\ rep b bs /\ view u h bs = map Some (spec_filter f (view u h es)).
Proof.
  intros f h a es R L. destruct (filter_done C u M f h a es R L) as (b & E). exists b.
  destruct (filter_ok C u M f h a es R) as [E'|(b' & E' & R' & V)]; [congruence|]. assert (b' = b) by congruence. subst b'.
  eexists. split; auto. split; [exact R'|exact V].
Qed.

Theorem find_finds_first : forall f h a es, rep a es ->
  exists r, find_cmd C u f h a = Some r /\ option_map (fun p => nth p h u) r = option_map snd (spec_find f (view u h es)).
Proof.
  intros f h a es (k & HS & HC). unfold find_cmd, spec_find. rewrite HC, HS.
  pose proof (find_loop_ok C u f h es [] (repeat None k) false) as F. cbn [app length] in F. rewrite F. rewrite pres_0.
  destruct (find (fun ix => f (snd ix) (fst ix)) (pres C 0 (view u h es))) as [ix|] eqn:E.
  - destruct (find_pres_get C u _ h es ix E) as (p & G & V). exists (Some p). unfold get. rewrite nth_error_app1 by (apply nth_error_Some; congruence).
    split; auto. cbn. congruence.
  - exists None. destruct (pres C 0 (view u h es)); auto.
Qed.
Theorem find_index_first : forall f h a es, rep a es ->
  find_index_cmd C u f h a = Some (match spec_find f (view u h es) with Some ix => Z.of_nat (fst ix) | None => (-1)%Z end).
Proof.
  intros f h a es (k & HS & HC). unfold find_index_cmd, spec_find. rewrite HC, HS.
  pose proof (find_loop_ok C u f h es [] (repeat None k) false) as F. cbn [app length] in F. rewrite F. rewrite pres_0.
  destruct (find _ _) as [ix|]; [reflexivity|]. destruct (pres C 0 (view u h es)); reflexivity.
Qed.
Theorem some_is_exists : forall f h a es, rep a es ->
  some_cmd C u f h a = Some (existsb (fun ix => f (snd ix) (fst ix)) (present (view u h es))).
Proof.
  intros f h a es (k & HS & HC). unfold some_cmd. rewrite HC, HS.
  pose proof (find_loop_ok C u f h es [] (repeat None k) false) as F. cbn [app length] in F. rewrite F. rewrite pres_0. cbn [option_map]. f_equal.
  generalize (pres C 0 (view u h es)). intros l.
  assert (X : forall l : list (nat * C), existsb (fun ix => f (snd ix) (fst ix)) l = match find (fun ix => f (snd ix) (fst ix)) l with Some _ => true | None => false end).
  { induction l0 as [|x l0 IH]; [reflexivity|]. cbn [existsb find]. destruct (f (snd x) (fst x)); [reflexivity|]. apply IH. }
  rewrite X. destruct (find _ l); [reflexivity|]. destruct l; reflexivity.
Qed.
Theorem every_is_forall : forall f h a es, rep a es -> present (view u h es) <> [] ->
  every_cmd C u f h a = Some (forallb (fun ix => f (snd ix) (fst ix)) (present (view u h es))).
Proof.
  intros f h a es (k & HS & HC) NE. unfold every_cmd. rewrite HC, HS.
  pose proof (every_loop_ok C u f h es [] (repeat None k) false) as F. cbn [app length] in F. rewrite F. rewrite pres_0 in *.
  destruct (pres C 0 (view u h es)); [congruence|reflexivity].
Qed.
(** on an array without elements every() is false; it should be true *)
Theorem every_empty_refuted : forall f h a, rep a [] -> every_cmd C u f h a = Some false.
Proof. intros f h a (k & HS & HC). unfold every_cmd. rewrite HC. reflexivity. Qed.

Theorem reduce_folds : forall f h a es c, rep a es ->
  reduce_cmd C u false f h a (Some c) = Some (Some (spec_reduce f c (present (view u h es)))) /\
  reduce_cmd C u true f h a (Some c) = Some (Some (spec_reduce f c (rev (present (view u h es))))).
Proof.
  intros f h a es c (k & HS & HC). unfold reduce_cmd. rewrite HC, HS. split.
  - pose proof (reduce_up_ok C u f h es [] (repeat None k) 0 c) as F. exact F.
  - apply reduce_down_ok.
Qed.
(** without an initial value the first element is it, provided the array does not start with a hole *)
Theorem reduce_folds_from_first : forall f h a p es, rep a (Some p :: es) ->
  reduce_cmd C u false f h a None = Some (Some (spec_reduce f (nth p h u) (tl (present (view u h (Some p :: es)))))).
Proof.
  intros f h a p es (k & HS & HC). unfold reduce_cmd. rewrite HC, HS. cbn [length app reduce_loop get nth_error Nat.eqb].
  pose proof (reduce_up_ok C u f h es [Some p] (repeat None k) 1 (rd C u h p)) as F. cbn [app length] in F. rewrite F.
  rewrite pres_0. cbn [view map option_map]. rewrite pres_some. reflexivity.
Qed.
Theorem reduce_hole_refuted : forall f h a p, rep a [None; Some p] ->
  reduce_cmd C u false f h a None = Some (Some (f u (nth p h u) 1)).
Proof. intros f h a p (k & HS & HC). unfold reduce_cmd. rewrite HC, HS. reflexivity. Qed.

Theorem join_joins : forall ts sep h a xs, holds u h a xs -> join C u ts sep h a = Some (spec_join sep (map ts xs)).
Proof.
  intros ts sep h a xs (es & (k & HS & HC) & _ & V). destruct (view_dense C u h es xs V) as (ps & -> & EX).
  unfold join. rewrite HC, HS, map_length. destruct ps as [|p ps]; [cbn in EX; subst; reflexivity|].
  cbn [length map app join_loop get nth_error Nat.eqb].
  pose proof (join_ok C u ts sep h ps [Some p] (repeat None k) ltac:(cbn; lia)) as J. cbn [app length] in J. rewrite J.
  rewrite <- EX. cbn [map]. rewrite spec_join_eq. cbn [app]. do 2 f_equal. rewrite !map_map. reflexivity.
Qed.
(** a hole in the middle loses its separator: [x, ,y].join gives "x,y" *)
Theorem join_hole_refuted : forall ts sep h a p q, rep a [Some p; None; Some q] ->
  join C u ts sep h a = Some (ts (nth p h u) ++ sep ++ ts (nth q h u)).
Proof. intros ts sep h a p q (k & HS & HC). unfold join. rewrite HC, HS. cbn. rewrite app_nil_r. reflexivity. Qed.
End C20.

(** filter shares its values with the source: writing to the result changes the source *)
Theorem filter_shares_refuted : exists a b h', rep a [Some 0; Some 1] /\
  filter_cmd nat 0 100 (fun _ _ => true) [10; 20] a = Some (Done b) /\
  (exists b', assign nat 100 [10; 20] b 0 99 = Some (Done (h', b'))) /\
  view 0 [10; 20] (elems a) = [Some 10; Some 20] /\ view 0 h' (elems a) = [Some 99; Some 20].
Proof.
  exists (mk [Some 0; Some 1] 2). eexists _, [99; 20]. split; [exists 0; auto|]. split; [vm_compute; reflexivity|].
  split; [eexists; vm_compute; reflexivity|]. split; reflexivity.
Qed.

(** ** C21: sort *)
Section C21.
Variable C : Type.
Variable u : C.
Implicit Types h : list C.

(** [cmp] orders the values (positive: the first is smaller); [qsort] is the library function. *)
Theorem sort_sorts : forall qsort cmp desc h a es,
  qsort_contract qsort -> qsort_order (fun x y => (- cmp x y)%Z) -> rep a es ->
  exists a' es', sort_cmd C u qsort cmp desc false h a = Some a' /\ rep a' es' /\ Permutation es' es /\
    sorted_by (sort_sub C u cmp desc h) es' /\ Permutation (view u h es') (view u h es).
Proof.
  intros qsort cmp desc h a es QC QO (k & HS & HC). unfold sort_cmd. rewrite HC.
  assert (X : exists a' es', Some a' = (if length es <=? 1 then Some a else
      Some (mkA (qsort (sort_sub C u cmp desc h) (firstn (length es) (sl a)) ++ skipn (length es) (sl a)) (length es))) /\
     rep a' es' /\ Permutation es' es /\ sorted_by (sort_sub C u cmp desc h) es').
  { destruct (Nat.leb_spec (length es) 1).
    - exists a, es. split; auto. split; [exists k; auto|]. split; [apply Permutation_refl|].
      destruct es as [|x [|y es]]; [constructor|constructor; constructor|cbn in *; lia].
    - destruct (QC (sort_sub C u cmp desc h) es (sort_sub_order C u cmp desc h QO)) as (P & S).
      rewrite HS, firstn_app, firstn_all, Nat.sub_diag, firstn_O, app_nil_r, skipn_app, skipn_all, Nat.sub_diag. cbn [app skipn].
      eexists _, (qsort (sort_sub C u cmp desc h) es). split; [reflexivity|]. split; auto.
      exists k. cbn [sl cnt]. split; auto. symmetry. apply Permutation_length; auto. }
  destruct X as (a' & es' & E & R & P & S). cbv zeta. rewrite <- E. exists a', es'. split; auto. split; auto. split; auto. split; auto.
  apply Permutation_map; auto.
Qed.

Lemma ptrs_perm : forall a b, Permutation a b -> Permutation (ptrs a) (ptrs b).
Proof. intros a b P. unfold ptrs. apply Permutation_flat_map; auto. Qed.

(** With the unique option the elements seen afterwards are strictly increasing, come from the array, and
    every element of the array equals one of them.  Partial: no holes; see the next theorem. *)
Theorem sort_unique : forall qsort cmp desc h a xs,
  qsort_contract qsort -> qsort_order (fun x y => (- cmp x y)%Z) -> holds u h a xs ->
  exists a' es, sort_cmd C u qsort cmp desc true h a = Some a' /\ elems a' = es /\ cnt a' = length es /\
    strict_by (sort_sub C u cmp desc h) es /\
    (forall e, In e es -> In e (elems a)) /\
    (forall e, In e (elems a) -> exists e', In e' es /\ sort_sub C u cmp desc h e' e = 0%Z).
Proof.
  intros qsort cmp desc h a xs QC QO (es & (k & HS & HC) & (O1 & O2) & V). unfold sort_cmd. rewrite HC.
  pose proof (sort_sub_order C u cmp desc h QO) as SO. pose proof SO as (RF & _ & _).
  assert (EA : elems a = es). { unfold elems. rewrite HC, HS, firstn_app, firstn_all, Nat.sub_diag, firstn_O, app_nil_r. auto. }
  destruct (Nat.leb_spec (length es) 1) as [L|L].
  { exists a, es. split; auto. split; auto. split; auto. rewrite EA. split; [destruct es as [|x [|y es]]; [constructor|constructor; constructor|cbn in *; lia]|].
    split; auto. intros e He. exists e. split; auto. }
  destruct (QC (sort_sub C u cmp desc h) es SO) as (P & ST).
  rewrite HS, firstn_app, firstn_all, Nat.sub_diag, firstn_O, app_nil_r, skipn_app, skipn_all, Nat.sub_diag. cbn [app skipn].
  cbv zeta. remember (qsort (sort_sub C u cmp desc h) es) as q eqn:EQ. clear EQ.
  destruct q as [|x post]; [apply Permutation_length in P; cbn in P; lia|].
  assert (ND : NoDup (ptrs ([] ++ [x] ++ post))). { eapply Permutation_NoDup; [apply ptrs_perm, Permutation_sym; exact P|auto]. }
  assert (NF : Forall (fun s => s <> None) ([] ++ [x] ++ post)).
  { apply Forall_forall. intros s Hs. cbn [app] in Hs. eapply Permutation_in in Hs; [|exact P]. destruct (view_dense C u h es xs V) as (ps & -> & _).
    apply in_map_iff in Hs. destruct Hs as (p & <- & _). discriminate. }
  destruct (uniq_loop_ok (sort_sub C u cmp desc h) post [] x [] (repeat None k) 0 ND NF eq_refl) as (junk & LJ & LD & E).
  assert (LP : length es = S (length post)) by (apply Permutation_length in P; cbn in P; lia).
  cbn [app length Nat.add] in E. replace (length es - 1) with (length post) by lia. cbn [app]. rewrite E.
  exists (mkA (x :: dedup_from (sort_sub C u cmp desc h) x post ++ junk ++ repeat None k) (length es - (length post - length (dedup_from (sort_sub C u cmp desc h) x post)))),
    (x :: dedup_from (sort_sub C u cmp desc h) x post).
  split; auto. assert (CN : length es - (length post - length (dedup_from (sort_sub C u cmp desc h) x post)) = S (length (dedup_from (sort_sub C u cmp desc h) x post))) by lia.
  rewrite CN. split; [|split; [reflexivity|split]].
  - unfold elems. cbn [cnt sl firstn]. rewrite firstn_app, firstn_all, Nat.sub_diag, firstn_O, app_nil_r. reflexivity.
  - apply dedup_strict; auto.
  - rewrite EA. split.
    + intros e [<-|He]; (eapply Permutation_in; [exact P|]); [left; auto|right; eapply dedup_in; eauto].
    + intros e He. eapply Permutation_in in He; [|apply Permutation_sym; exact P]. destruct He as [->|He].
      * exists e. split; [left; auto|apply RF].
      * apply dedup_covers; auto.
Qed.
End C21.

(** a sort that meets the contract exists: insertion *)
Section Insertion.
Variable A : Type.
Fixpoint insert (sub : A -> A -> Z) (x : A) (l : list A) : list A :=
  match l with [] => [x] | y :: r => if (sub x y <=? 0)%Z then x :: l else y :: insert sub x r end.
Definition isort (sub : A -> A -> Z) (l : list A) : list A := fold_right (insert sub) [] l.
Lemma insert_perm : forall sub x l, Permutation (insert sub x l) (x :: l).
Proof. induction l as [|y l IH]; cbn [insert]; [auto|]. destruct (sub x y <=? 0)%Z; auto. rewrite IH. constructor. Qed.
Theorem isort_meets_contract : qsort_contract isort.
Proof.
  intros sub l (RF & AS & TR). split; induction l as [|x l IH]; cbn [isort fold_right]; try constructor.
  - fold (isort sub l). rewrite insert_perm. constructor. auto.
  - fold (isort sub l). revert IH. generalize (isort sub l). clear l. induction l as [|y l IH]; intros S; cbn [insert]; [constructor; constructor|].
    inversion S as [|? ? F S']; subst. destruct (Z.leb_spec (sub x y) 0) as [L|L].
    + constructor; auto. constructor; auto. eapply Forall_impl; [|exact F]. cbv beta. intros z Hz. eapply TR; eauto.
    + constructor; auto. apply Forall_forall. intros z Hz. apply (Permutation_in _ (insert_perm sub x l)) in Hz. destruct Hz as [<-|Hz].
      * specialize (AS y x). lia.
      * rewrite Forall_forall in F. auto.
Qed.
End Insertion.
Definition zcmp (x y : Z) : Z := (if x =? y then 0 else if y <? x then -1 else 1)%Z.
Lemma zcmp_order : qsort_order (fun x y => (- zcmp x y)%Z).
Proof.
  unfold zcmp. split; [|split].
  - intros x. rewrite Z.eqb_refl. reflexivity.
  - intros x y. destruct (Z.eqb_spec x y); destruct (Z.eqb_spec y x); destruct (Z.ltb_spec x y); destruct (Z.ltb_spec y x); lia.
  - intros x y z. destruct (Z.eqb_spec x y); destruct (Z.ltb_spec y x); destruct (Z.eqb_spec y z); destruct (Z.ltb_spec z y); destruct (Z.eqb_spec x z); destruct (Z.ltb_spec z x); lia.
Qed.

(** sorting [1,1,2] with unique leaves the pointer to 2 in the slot after the end: the array is not in the
    state every other operation relies on, and a[2] = 5 then overwrites a[1] and is lost *)
Theorem sort_unique_stale_refuted : exists a a', rep a [Some 0; Some 1; Some 2] /\
  sort_cmd Z 0%Z (isort slot) zcmp false true [1; 1; 2]%Z a = Some a' /\
  sl a' = [Some 0; Some 2; Some 2] /\ cnt a' = 2 /\
  (exists h2 a2, assign Z 100 [1; 1; 2]%Z a' 2 5%Z = Some (Done (h2, a2)) /\
     view 0%Z h2 (elems a2) = [Some 1; Some 5]%Z).
Proof.
  exists (mk [Some 0; Some 1; Some 2] 3). eexists. split; [exists 0; auto|]. split; [vm_compute; reflexivity|].
  split; [reflexivity|]. split; [reflexivity|]. eexists _, _. split; [vm_compute; reflexivity|]. reflexivity.
Qed.
(** The result of a compare function is cut to an integer: with numbers counted in tenths and the usual
    function(a,b) { return a-b; }, the values 0.5 and 0.3 count as equal and unique drops one of them. *)
Definition tenths_cmp (x y : Z) : Z := (- Z.quot (x - y) 10)%Z.
Theorem sort_fraction_refuted : exists a',
  sort_cmd Z 0%Z (isort slot) tenths_cmp false true [5; 3]%Z (mkA [Some 0; Some 1] 2) = Some a' /\
  view 0%Z [5; 3]%Z (elems a') = [Some 5%Z].
Proof. eexists. split; [vm_compute; reflexivity|reflexivity]. Qed.

(** *** Examples: the hypotheses are met by concrete arrays *)
Example ex_holds : holds 0%Z [7; 8; 9]%Z (mkA [Some 0; Some 1; Some 2; None] 3) [7; 8; 9]%Z.
Proof.
  exists [Some 0; Some 1; Some 2]. split; [exists 1; auto|]. split; [|reflexivity]. split; cbn.
  - repeat constructor; cbn; intuition congruence.
  - repeat constructor.
Qed.
Example ex_history : do_calls Z 0%Z 1000 [] empty
  [KPush _ [1; 2; 3]%Z; KReverse _; KSplice _ 1%Z (Some 1%Z) [8; 9]%Z; KShift _; KSet _ 3 4%Z; KFill _ 0%Z (-1)%Z None; KUnshift _ [5%Z]] <> None /\
  fold_left spec_op [KPush _ [1; 2; 3]%Z; KReverse _; KSplice _ 1%Z (Some 1%Z) [8; 9]%Z; KShift _; KSet _ 3 4%Z; KFill _ 0%Z (-1)%Z None; KUnshift _ [5%Z]] [] = [5; 8; 9; 1; 0]%Z.
Proof. split; [vm_compute; discriminate|reflexivity]. Qed.
Example ex_sort : exists a', sort_cmd Z 0%Z (isort slot) zcmp false true [3; 1; 3; 2]%Z (mkA [Some 0; Some 1; Some 2; Some 3] 4) = Some a' /\
  view 0%Z [3; 1; 3; 2]%Z (elems a') = [Some 1; Some 2; Some 3]%Z.
Proof. eexists. split; [vm_compute; reflexivity|reflexivity]. Qed.
Example ex_slice : spec_slice [1; 2; 3; 4; 5] 1%Z (Some (-2)%Z) = [2; 3; 4].
Proof. reflexivity. Qed.

Print Assumptions array_history.
Print Assumptions array_memory_safe.
Print Assumptions sort_sorts.
Print Assumptions sort_unique.
Print Assumptions index_of_first.
Print Assumptions concat_concatenates.
