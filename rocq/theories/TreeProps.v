(** Properties C01, C02, C03, C06, C46: trees (JS objects). *)
From Coq Require Import ZArith List Bool Lia Sorting.Sorted Permutation.
Import ListNotations.
From Verif Require Import TreeModel TreeSpec TreeProofs TreeProofs2 TreeProofs3 TreeProofs4.
Local Open Scope Z_scope.

(** * The comparison procedures are total orders *)
Lemma strcmp_flip : forall a b, strcmp a b = - strcmp b a.
Proof.
  induction a as [|x a IH]; intros [|y b]; simpl; try lia.
  destruct (x =? y) eqn:E1, (y =? x) eqn:E2; try (rewrite ?Z.eqb_eq, ?Z.eqb_neq in *; lia).
  apply IH.
Qed.

Lemma strcmp_refl : forall a, strcmp a a = 0.
Proof. induction a as [|x a IH]; simpl; auto. now rewrite Z.eqb_refl. Qed.

Lemma strcmp_zero : forall a b, cstring a -> cstring b -> strcmp a b = 0 -> a = b.
Proof.
  induction a as [|x a IH]; intros [|y b] Ha Hb H; simpl in H; auto.
  - inversion Hb; lia.
  - inversion Ha; lia.
  - inversion Ha; inversion Hb; subst. destruct (x =? y) eqn:E.
    + apply Z.eqb_eq in E. subst. f_equal. apply IH; auto.
    + apply Z.eqb_neq in E. lia.
Qed.

Lemma strcmp_trans : forall a b c, cstring a -> cstring b -> cstring c ->
  strcmp a b < 0 -> strcmp b c < 0 -> strcmp a c < 0.
Proof.
  induction a as [|x a IH]; intros [|y b] [|z c] Ha Hb Hc; simpl; intros H1 H2; try lia;
    inversion Ha; inversion Hb; inversion Hc; subst; try lia.
  destruct (x =? y) eqn:E1, (y =? z) eqn:E2, (x =? z) eqn:E3;
    rewrite ?Z.eqb_eq, ?Z.eqb_neq in *; subst; try lia; eauto.
Qed.

Theorem strcmp_total_order : total_order cstring strcmp.
Proof.
  constructor.
  - intros a b Ha Hb; split; [apply strcmp_zero; auto|intros ->; apply strcmp_refl].
  - intros a b _ _. rewrite (strcmp_flip a b). lia.
  - apply strcmp_trans.
Qed.

Lemma memcmp_flip : forall a b, memcmp a b = - memcmp b a.
Proof.
  induction a as [|x a IH]; intros [|y b]; simpl; try lia.
  destruct (x =? y) eqn:E1, (y =? x) eqn:E2; try (rewrite ?Z.eqb_eq, ?Z.eqb_neq in *; lia).
  apply IH.
Qed.
Theorem memcmp_total_order : forall n, total_order (fun k => length k = n) memcmp.
Proof.
  intros n. constructor.
  - revert n. intros n a. revert n. induction a as [|x a IH]; intros n [|y b] Ha Hb; simpl in *; try (subst; discriminate); try tauto.
    destruct (x =? y) eqn:E; rewrite ?Z.eqb_eq, ?Z.eqb_neq in E.
    + subst y. rewrite (IH (pred n) b) by lia. split; congruence.
    + split; [lia|congruence].
  - intros a b _ _. rewrite (memcmp_flip a b). lia.
  - intros a. revert n. induction a as [|x a IH]; intros n [|y b] [|z c] Ha Hb Hc; simpl in *; intros H1 H2; try lia; try (subst; discriminate).
    destruct (x =? y) eqn:E1, (y =? z) eqn:E2, (x =? z) eqn:E3;
      rewrite ?Z.eqb_eq, ?Z.eqb_neq in *; subst; try lia.
    apply (IH (length a) b c); auto; lia.
Qed.

(** One-word keys that lie within a window of 2^31. *)
Theorem oneword_total_order : forall base,
  total_order (fun k => base <= k < base + 2147483648) oneword_cmp.
Proof.
  intros base.
  assert (H : forall a b, base <= a < base + 2147483648 -> base <= b < base + 2147483648 ->
            oneword_cmp a b = a - b).
  { intros a b Ha Hb. unfold oneword_cmp, to_int32.
    assert (E : ((a - b) mod 18446744073709551616) mod 4294967296 = (a - b) mod 4294967296).
    { change 18446744073709551616 with (4294967296 * 4294967296).
      rewrite Z.rem_mul_r by lia. rewrite Z.mul_comm, Z.mod_add by lia. apply Z.mod_mod. lia. }
    rewrite E.
    destruct (Z_lt_ge_dec (a - b) 0) as [G|G].
    - assert (E2 : (a - b) mod 4294967296 = a - b + 4294967296).
      { symmetry. apply Z.mod_unique with (q := -1); lia. }
      rewrite E2. destruct (a - b + 4294967296 <? 2147483648) eqn:E3; rewrite ?Z.ltb_lt, ?Z.ltb_ge in E3; lia.
    - rewrite Z.mod_small by lia.
      destruct (a - b <? 2147483648) eqn:E3; rewrite ?Z.ltb_lt, ?Z.ltb_ge in E3; lia. }
  constructor.
  - intros a b Ha Hb. rewrite H by auto. lia.
  - intros a b Ha Hb. rewrite !H by auto. lia.
  - intros a b c Ha Hb Hc. rewrite !H by auto. lia.
Qed.

(** * C01: a tree is a finite map *)
Theorem tree_is_map : forall (K V : Type) (P : K -> Prop) (cmp : K -> K -> Z)
    (dec : forall a b : K, {a = b} + {a <> b}) (kt : keytype),
  total_order P cmp -> kt <> KStruct ->
  forall ops : list (op K V), Forall (fun o => P (op_key o)) ops ->
  exists t, run cmp kt ops tree_new = Some t /\
            forall k, P k -> tree_get cmp k t = binding dec ops k None.
Proof.
  intros K V P cmp dec kt TO Hkt ops HP.
  destruct (tree_get_binding_aux P cmp TO dec kt ops tree_new Hkt (wf_new P cmp) HP) as (t & E & _ & G).
  exists t. split; auto.
Qed.

(** JS objects: keys are C strings compared by strcmp (JSI_KEYS_STRINGKEY). *)
Theorem object_properties_are_a_map : forall (V : Type) (ops : list (op (list Z) V)),
  Forall (fun o => cstring (op_key o)) ops ->
  exists t, run strcmp KWord ops tree_new = Some t /\
    forall k, cstring k -> tree_get strcmp k t = binding (list_eq_dec Z.eq_dec) ops k None.
Proof.
  intros V ops H. apply (tree_is_map _ _ cstring); auto using strcmp_total_order. discriminate.
Qed.

(** The value returned by delete tells whether the key was bound. *)
Theorem tree_delete_reports_presence : forall (K V : Type) (P : K -> Prop) (cmp : K -> K -> Z)
    (dec : forall a b : K, {a = b} + {a <> b}) (kt : keytype),
  total_order P cmp -> kt <> KStruct ->
  forall (ops : list (op K V)) t k, Forall (fun o => P (op_key o)) ops -> P k ->
  run cmp kt ops tree_new = Some t ->
  exists t' b, tree_unset cmp kt k t = Some (t', b) /\
               (b = true <-> binding dec ops k None <> None).
Proof.
  intros K V P cmp dec kt TO Hkt ops t k HP Hk HR.
  destruct (tree_get_binding_aux P cmp TO dec kt ops tree_new Hkt (wf_new P cmp) HP) as (t2 & E & W & G).
  rewrite E in HR; inversion HR; subst t2.
  destruct (tree_unset_ok P cmp TO kt k t Hkt W Hk) as (t' & b & E1 & _ & Hb & _).
  exists t', b. split; auto. rewrite Hb. change (@None V) with (tree_get cmp k (@tree_new K V)).
  rewrite <- G by auto.
  split.
  - intros (v & Hv). apply (tree_get_spec P cmp TO) in Hv; auto. rewrite Hv. discriminate.
  - intros Hn. destruct (tree_get cmp k t) as [v|] eqn:EG; [|elim Hn; auto].
    exists v. now apply (tree_get_spec P cmp TO).
Qed.

(** Non-vacuity: a history that rotates, recolours, overwrites and deletes an inner node. *)
Definition demo_ops : list (op Z Z) :=
  [OpSet 5 50; OpSet 3 30; OpSet 8 80; OpSet 1 10; OpSet 4 40; OpSet 7 70; OpSet 9 90;
   OpSet 2 20; OpSet 3 33; OpUnset 5; OpUnset 1; OpUnset 100].
Example demo_keys_ok : Forall (fun o => 0 <= op_key o < 0 + 2147483648) demo_ops.
Proof. repeat constructor; simpl; lia. Qed.
Example demo_run :
  exists t, run oneword_cmp KWord demo_ops tree_new = Some t /\
     map (fun k => tree_get oneword_cmp k t) [5;3;8;1;4;7;9;2;100] =
     [None; Some 33; Some 80; None; Some 40; Some 70; Some 90; Some 20; None].
Proof. eexists; split; [vm_compute; reflexivity|vm_compute; reflexivity]. Qed.
Example demo_string_key : cstring [97; 98; 99].
Proof. repeat constructor; lia. Qed.

(** Struct keys: deleting a node with two children forgets to move to the predecessor
    (jsiTree.c:614-625 lacks [n = pred]), so other keys disappear. *)
Theorem struct_tree_delete_loses_keys_refuted :
  exists (ops : list (op (list Z) Z)) t k,
    Forall (fun o => length (op_key o) = 4%nat) ops /\ length k = 4%nat /\
    run memcmp KStruct ops tree_new = Some t /\
    binding (list_eq_dec Z.eq_dec) ops k None = Some 3 /\
    tree_get memcmp k t = None.
Proof.
  exists [OpSet [0;0;0;2] 2; OpSet [0;0;0;1] 1; OpSet [0;0;0;3] 3; OpUnset [0;0;0;2]].
  eexists. exists [0;0;0;3]. repeat split; try (repeat constructor; fail).
Qed.

(** * C02: iteration and size *)
Theorem tree_walk_inorder_ascending_and_complete :
  forall (K V : Type) (P : K -> Prop) (cmp : K -> K -> Z) (dec : forall a b : K, {a = b} + {a <> b}) (kt : keytype),
  total_order P cmp -> kt <> KStruct ->
  forall (ops : list (op K V)) t, Forall (fun o => P (op_key o)) ops ->
  run cmp kt ops tree_new = Some t ->
  let listing := map (fun e => (ekey e, eval e)) (tree_inorder (root t)) in
  ascending cmp (map fst listing) /\
  (forall k v, P k -> (In (k, v) listing <-> binding dec ops k None = Some v)) /\
  tree_size t = Z.of_nat (length listing).
Proof.
  intros K V P cmp dec kt TO Hkt ops t HP HR listing.
  destruct (tree_get_binding_aux P cmp TO dec kt ops tree_new Hkt (wf_new P cmp) HP) as (t2 & E & W & G).
  rewrite E in HR; inversion HR; subst t2. pose proof W as ((S1 & _) & _ & N).
  split; [|split].
  - unfold listing. rewrite map_map. exact S1.
  - intros k v Hk. change (@None V) with (tree_get cmp k (@tree_new K V)). rewrite <- G by auto.
    rewrite (tree_get_spec P cmp TO) by auto. reflexivity.
  - unfold tree_size, listing. rewrite N, map_length. reflexivity.
Qed.

(** The other walk orders list the same entries, each exactly once. *)
Theorem tree_walks_agree : forall (K V : Type) (t : tree K V),
  Permutation (tree_preorder t) (tree_inorder t) /\
  Permutation (tree_postorder t) (tree_inorder t) /\
  exists es, tree_walk_level (S (height t)) t 0 = Some es /\ Permutation es (tree_inorder t).
Proof.
  intros K V t. split; [apply preorder_perm|split; [apply postorder_perm|]].
  exists (levels t 0 (height t)). split.
  - rewrite walk_level_levels by lia. now rewrite Nat.sub_0_r.
  - apply levels_perm. auto.
Qed.

(** * C03: balance *)
Theorem tree_height_logarithmic : forall (K V : Type) (P : K -> Prop) (cmp : K -> K -> Z) (kt : keytype),
  total_order P cmp -> kt <> KStruct ->
  forall (ops : list (op K V)) t, Forall (fun o => P (op_key o)) ops ->
  run cmp kt ops tree_new = Some t ->
  Z.of_nat (height (root t)) <= 2 * Z.log2 (tree_size t + 1).
Proof.
  intros K V P cmp kt TO Hkt ops t HP HR.
  pose proof (run_wf P cmp TO kt ops _ _ Hkt (wf_new P cmp) HP HR) as (_ & (m & HRB) & N).
  apply RB_height_log in HRB. unfold tree_size. rewrite N.
  set (n := length (tree_inorder (root t))) in *.
  assert (E : Z.log2 (Z.of_nat n + 1) = Z.of_nat (Nat.log2 (S n))).
  { replace (Z.of_nat n + 1) with (Z.of_nat (S n)) by lia.
    apply Z.log2_unique'  with (c := Z.of_nat (S n) - 2 ^ Z.of_nat (Nat.log2 (S n))); try lia.
    pose proof (Nat.log2_spec (S n) ltac:(lia)) as [L1 L2].
    rewrite Nat.pow_succ_r' in L2.
    apply inj_le in L1. apply inj_lt in L2. rewrite Nat2Z.inj_mul in L2. rewrite Nat2Z.inj_pow in L1, L2.
    change (Z.of_nat 2) with 2 in *. lia. }
  rewrite E. lia.
Qed.

(** Worst-case search cost: the number of key comparisons of a lookup is at most the height. *)
Fixpoint find_comparisons {K V} (cmp : K -> K -> Z) (k : K) (t : tree K V) : nat :=
  match t with
  | E => 0%nat
  | T _ l e r =>
      S (if cmp (ekey e) k =? 0 then 0%nat
         else if cmp (ekey e) k <? 0 then find_comparisons cmp k l else find_comparisons cmp k r)
  end.
Lemma find_comparisons_height : forall K V (cmp : K -> K -> Z) k (t : tree K V),
  (find_comparisons cmp k t <= height t)%nat.
Proof.
  induction t as [|c l IHl e r IHr]; simpl; [lia|].
  destruct (cmp (ekey e) k =? 0), (cmp (ekey e) k <? 0); lia.
Qed.

(** The iterator API (Jsi_TreeSearchFirst/Next, default order) lists exactly the in-order
    entries as long as the tree has fewer than 2^97 entries. *)
Theorem tree_search_lists_all_in_order : forall (K V : Type) (P : K -> Prop) (cmp : K -> K -> Z) (kt : keytype),
  total_order P cmp -> kt <> KStruct ->
  forall (ops : list (op K V)) t, Forall (fun o => P (op_key o)) ops ->
  run cmp kt ops tree_new = Some t ->
  tree_size t + 1 < 2 ^ 97 ->
  exists n, forall fuel depth, (n <= fuel)%nat -> (n <= depth)%nat ->
    search_in_all fuel depth (search_init (root t)) = Some (tree_inorder (root t)).
Proof.
  intros K V P cmp kt TO Hkt ops t HP HR HB.
  pose proof (tree_height_logarithmic K V P cmp kt TO Hkt ops t HP HR) as HH.
  assert (HL : Z.log2 (tree_size t + 1) < 97).
  { destruct (Z_le_gt_dec (tree_size t + 1) 0) as [G|G].
    - rewrite Z.log2_nonpos by auto. lia.
    - apply Z.log2_lt_pow2; lia. }
  exists (S (height (root t) + length (tree_inorder (root t)))). intros fuel depth H1 H2.
  apply search_in_complete; lia.
Qed.

(** Post-order iteration, for trees with fewer than 2^48 entries. *)
Theorem tree_search_postorder : forall (K V : Type) (P : K -> Prop) (cmp : K -> K -> Z) (kt : keytype),
  total_order P cmp -> kt <> KStruct ->
  forall (ops : list (op K V)) t, Forall (fun o => P (op_key o)) ops ->
  run cmp kt ops tree_new = Some t ->
  tree_size t + 1 < 2 ^ 48 ->
  exists n, forall fuel depth, (n <= fuel)%nat -> (n <= depth)%nat ->
    let '(s, cur) := search_post_first (root t) (search_init (root t)) in
    search_post_all fuel depth cur s = Some (tree_postorder (root t)).
Proof.
  intros K V P cmp kt TO Hkt ops t HP HR HB.
  pose proof (tree_height_logarithmic K V P cmp kt TO Hkt ops t HP HR) as HH.
  assert (HL : Z.log2 (tree_size t + 1) < 48).
  { destruct (Z_le_gt_dec (tree_size t + 1) 0) as [G|G].
    - rewrite Z.log2_nonpos by auto. lia.
    - apply Z.log2_lt_pow2; lia. }
  apply search_post_complete; [lia|].
  destruct (fresh_run cmp kt ops tree_new t Hkt (fresh_new (K:=K) (V:=V)) HR) as [G _]. exact G.
Qed.

(** Level-order iteration: complete for small trees ... *)
Theorem tree_search_levelorder_small : forall (K V : Type) (t : tree K V),
  (length (tree_inorder t) <= 197)%nat ->
  forall fuel, (length (tree_inorder t) < fuel)%nat ->
  exists es, search_level_all fuel (Some t) (search_init t) = Some es /\ Permutation es (tree_inorder t).
Proof. intros; apply search_level_complete; auto. Qed.

(** ... but growing out of the static array of 200 slots drops the queue (searchSpace,
    jsiTree.c:643-655, does not copy): a reachable tree of 1000 keys crashes the walk. *)
Fixpoint upto (n : nat) : list (op Z Z) :=
  match n with O => [] | S m => upto m ++ [OpSet (Z.of_nat m) 0] end.
Theorem tree_search_levelorder_large_refuted :
  exists t, run oneword_cmp KWord (upto 1000) tree_new = Some t /\ tree_size t = 1000 /\
    search_level_all 1200 (Some (root t)) (search_init (root t)) = None.
Proof. eexists; split; [|split]; vm_compute; reflexivity. Qed.

(** Pre-order iteration never ends on a tree whose root has a child (jsiTree.c:706-714 pushes the
    node itself back on the stack). *)
Theorem tree_search_preorder_diverges_refuted :
  exists t, run oneword_cmp KWord [OpSet 1 1; OpSet 2 2] tree_new = Some t /\
    forall fuel, search_pre_all fuel (Some (root t)) (search_init (root t)) = None.
Proof.
  eexists; split; [vm_compute; reflexivity|].
  cbn [root]. intros fuel.
  set (e1 := mkEntry 1 1 1). set (e2 := mkEntry 2 2 2).
  set (leaf := T Red E e2 E). set (tt := T Black leaf e1 E).
  (* the state after the first call is a fixed point *)
  assert (L : forall f, search_pre_all f None (mkSearch [Some tt] 200 true tt) = None).
  { intros f.
    assert (G : forall n, n <= 190 -> True) by auto. clear G.
    (* popping tt pushes tt back and the leaf, and returns the leaf *)
    induction f as [|f IH]; [reflexivity|].
    cbn [search_pre_all].
    change (search_pre None (mkSearch [Some tt] 200 true tt)) with (SEntry e2 (mkSearch [Some tt] 200 true tt)).
    cbv beta iota. rewrite IH. reflexivity. }
  destruct fuel as [|f]; [reflexivity|].
  cbn [search_pre_all].
  change (search_pre (Some tt) (search_init tt)) with (SEntry e2 (mkSearch [Some tt] 200 true tt)).
  cbv beta iota. rewrite L. reflexivity.
Qed.

(** * C06: one-word keys *)
Theorem oneword_keys_distinct : forall (base a b : Z),
  base <= a < base + 2147483648 -> base <= b < base + 2147483648 ->
  a <> b -> oneword_cmp a b <> 0.
Proof. intros base a b Ha Hb Hne H. apply Hne. apply (cmp_eq _ _ (oneword_total_order base)); auto. Qed.

Theorem oneword_tree_is_map : forall (V : Type) (base : Z) (ops : list (op Z V)),
  Forall (fun o => base <= op_key o < base + 2147483648) ops ->
  exists t, run oneword_cmp KWord ops tree_new = Some t /\
    forall k, base <= k < base + 2147483648 -> tree_get oneword_cmp k t = binding Z.eq_dec ops k None.
Proof.
  intros V base ops H. apply (tree_is_map _ _ (fun k => base <= k < base + 2147483648)); auto using oneword_total_order. discriminate.
Qed.
Theorem oneword_keys_collide_refuted :
  exists a b t, 0 <= a < 2 ^ 64 /\ 0 <= b < 2 ^ 64 /\ a <> b /\
    run oneword_cmp KWord [OpSet a 1; OpSet b 2] tree_new = Some t /\
    tree_size t = 1 /\ tree_get oneword_cmp a t = Some 2.
Proof.
  exists 1, (1 + 2 ^ 32). eexists. repeat split; try lia; try discriminate; vm_compute; reflexivity.
Qed.

(** Nor is the one-word comparison transitive on 64-bit words. *)
Theorem oneword_order_cyclic_refuted :
  exists a b c, oneword_cmp a b < 0 /\ oneword_cmp b c < 0 /\ oneword_cmp c a < 0.
Proof. exists 0, 1431655765, 2863311530. vm_compute. auto. Qed.

(** * C46: entries keep their address *)
Theorem string_tree_entry_pointer_stable : forall (K V : Type) (P : K -> Prop) (cmp : K -> K -> Z),
  total_order P cmp ->
  forall (ops1 ops2 : list (op K V)) t1 t2 e,
  Forall (fun o => P (op_key o)) (ops1 ++ ops2) ->
  run cmp KString ops1 tree_new = Some t1 ->
  run cmp KString ops2 t1 = Some t2 ->
  P (ekey e) -> tree_find cmp (ekey e) (root t1) = Some e ->
  ~ In (OpUnset (ekey e)) ops2 ->
  exists e', tree_find cmp (ekey e) (root t2) = Some e' /\ eptr e' = eptr e.
Proof.
  intros K V P cmp TO ops1 ops2 t1 t2 e HP H1 H2 Hk Hf Hno.
  apply Forall_app in HP. destruct HP as [HP1 HP2].
  pose proof (run_wf P cmp TO KString ops1 _ _ ltac:(discriminate) (wf_new P cmp) HP1 H1) as W1.
  pose proof (run_wf P cmp TO KString ops2 _ _ ltac:(discriminate) W1 HP2 H2) as W2.
  apply (tree_find_in P cmp TO) in Hf; [|apply W1|auto]. destruct Hf as [Hin _].
  destruct (stable_run P cmp TO ops2 t1 t2 e W1 HP2 H2 Hin Hno) as (v & Hin2).
  destruct (tree_find cmp (ekey e) (root t2)) as [e'|] eqn:EF.
  - exists e'. split; auto. apply (tree_find_in P cmp TO) in EF; [|apply W2|auto]. destruct EF as [Hin3 Hk3].
    assert (e' = mkEntry (eptr e) (ekey e) v) as ->; [|reflexivity].
    eapply (sorted_key_inj P cmp TO); [apply W2|exact Hin3|exact Hin2|exact Hk3].
  - exfalso. unfold tree_find in EF.
    destruct (find_path cmp (ekey e) (root t2) []) as [[[[[? ?] ?] ?] ?]|] eqn:EP; [discriminate|].
    destruct W2 as (S2 & _). 
    apply (find_path_none P cmp TO _ _ _ Hk S2 EP _ Hin2). reflexivity.
Qed.

(** For one-word and STRINGKEY trees (JS objects!) deleting one key can free the entry of
    another (jsiTree.c:599-609 swaps contents and frees the predecessor). *)
Theorem word_tree_entry_pointer_unstable_refuted :
  exists (t1 t2 : rbtree Z Z) e,
    run oneword_cmp KWord [OpSet 2 20; OpSet 1 10; OpSet 3 30] tree_new = Some t1 /\
    tree_find oneword_cmp 3 (root t1) = Some e /\
    run oneword_cmp KWord [OpUnset 2] t1 = Some t2 /\
    tree_get oneword_cmp 3 t2 = Some 30 /\
    ~ In (eptr e) (map (@eptr Z Z) (tree_inorder (root t2))).
Proof.
  eexists _, _, _. repeat split; try (vm_compute; reflexivity).
  vm_compute. intros [H|[H|[]]]; discriminate.
Qed.

Print Assumptions tree_is_map.
Print Assumptions object_properties_are_a_map.
Print Assumptions tree_delete_reports_presence.
Print Assumptions struct_tree_delete_loses_keys_refuted.
Print Assumptions tree_walk_inorder_ascending_and_complete.
Print Assumptions tree_walks_agree.
Print Assumptions tree_height_logarithmic.
Print Assumptions tree_search_lists_all_in_order.
Print Assumptions tree_search_postorder.
Print Assumptions tree_search_levelorder_small.
Print Assumptions tree_search_levelorder_large_refuted.
Print Assumptions tree_search_preorder_diverges_refuted.
Print Assumptions oneword_keys_distinct.
Print Assumptions oneword_keys_collide_refuted.
Print Assumptions string_tree_entry_pointer_stable.
Print Assumptions word_tree_entry_pointer_unstable_refuted.
