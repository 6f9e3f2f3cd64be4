From Coq Require Import ZArith List Bool Lia Sorting.Sorted Permutation.
Import ListNotations.
From Verif Require Import TreeModel TreeSpec TreeProofs TreeProofs2 TreeProofs3.
Local Open Scope Z_scope.

Section Post.
Context {K V : Type}.
Notation tree := (tree K V).
Notation entry := (entry K V).
Notation search := (search K V).

Definition ptrs (t : tree) : list nat := map (@eptr K V) (tree_inorder t).

Definition Outs (cur : option nat) (st : list (option tree)) (es : list entry) : Prop :=
  exists N, forall fuel depth c0, (N <= fuel)%nat -> (N <= depth)%nat ->
    search_post_all fuel depth cur (mkSearch (rev st) 200 true c0) = Some es.

Lemma space_id : forall (st : list (option tree)) c, (length st < 198)%nat ->
  search_space (mkSearch (rev st) 200 true c) 2 = mkSearch (rev st) 200 true c.
Proof. intros st c H. apply (no_growth _ (length st) ); simpl; rewrite ?rev_length; auto; lia. Qed.

Lemma Outs_nil : forall cur, Outs cur [] [].
Proof.
  intros cur. exists 1%nat. intros [|f] [|d] c0 H1 H2; try lia. reflexivity.
Qed.

Lemma Outs_pop : forall cur c l e r st es, (length st < 197)%nat ->
  is_node r cur || is_node l cur || both_null l r = true ->
  Outs (Some (eptr e)) st es -> Outs cur (Some (T c l e r) :: st) (e :: es).
Proof.
  intros cur c l e r st es HL Hc (N & HN). exists (S N). intros [|f] [|d] c0 H1 H2; try lia.
  cbn [search_post_all]. rewrite space_id by (simpl; lia).
  cbn [search_post_loop]. cbn [sptrs smax sstatic scur]. rewrite rev_involutive. rewrite Hc. cbn [obind].
  rewrite HN by lia. reflexivity.
Qed.

Definition push1 (t : tree) (st : list (option tree)) : list (option tree) :=
  match t with E => st | _ => Some t :: st end.

Lemma spush_push1 : forall (t : tree) st c0,
  spush t (mkSearch (rev st) 200 true c0) = mkSearch (rev (push1 t st)) 200 true c0.
Proof. intros [|c l e r] st c0; reflexivity. Qed.

Lemma Outs_expand : forall cur c l e r st es, (length st < 195)%nat ->
  is_node r cur || is_node l cur || both_null l r = false ->
  Outs cur (push1 r (push1 l (Some (T c l e r) :: st))) es -> Outs cur (Some (T c l e r) :: st) es.
Proof.
  intros cur c l e r st es HL Hc (N & HN). exists (S N). intros [|f] [|d] c0 H1 H2; try lia.
  rewrite <- (HN (S f) d c0) by lia.
  cbn [search_post_all].
  rewrite !space_id by (destruct l, r; simpl; lia).
  assert (G : search_post_loop (S d) cur (mkSearch (rev (Some (T c l e r) :: st)) 200 true c0) =
              search_post_loop d cur (mkSearch (rev (push1 r (push1 l (Some (T c l e r) :: st)))) 200 true c0)).
  { cbn [search_post_loop]. cbn [sptrs smax sstatic scur]. rewrite rev_involutive. rewrite Hc.
    rewrite space_id by (simpl; lia). rewrite !spush_push1. reflexivity. }
  rewrite G.
  destruct (search_post_loop d cur _) as [[[[e0 cur0] s0]|]|] eqn:EL; auto.
  (* same step budget for the rest: both use S d versus d; go through HN for every larger bound *)
  assert (X := HN (S f) d c0 ltac:(lia) ltac:(lia)). cbn [search_post_all] in X.
  rewrite space_id in X by (destruct l, r; simpl; lia). rewrite EL in X.
  assert (Y := HN (S f) (S d) c0 ltac:(lia) ltac:(lia)). cbn [search_post_all] in Y.
  rewrite space_id in Y by (destruct l, r; simpl; lia).
  assert (M : forall d' (c' : option nat) (s : search) x, search_post_loop d' c' s = Some x -> search_post_loop (S d') c' s = Some x).
  { clear. induction d' as [|d' IH]; intros c' s x H; [discriminate|].
    change (search_post_loop (S (S d')) c' s) with
      (match rev (sptrs s) with
      | [] => Some None
      | Some (T hc l e r) :: rest =>
          if is_node r c' || is_node l c'
             || both_null l r
          then Some (Some (e, Some (eptr e), mkSearch (rev rest) (smax s) (sstatic s) (scur s)))
          else search_post_loop (S d') c' (spush r (spush l (search_space s 2)))
      | _ :: _ => None
      end).
    cbn [search_post_loop] in H.
    destruct (rev (sptrs s)) as [|[[|hc l e r]|] rest]; auto.
    destruct (is_node r c' || is_node l c' || both_null l r); auto. }
  rewrite (M _ _ _ _ EL) in Y. rewrite X. exact Y.
Qed.

Lemma is_node_in : forall (t : tree) p, is_node t (Some p) = true -> In p (ptrs t).
Proof.
  intros [|c l e r] p H; simpl in H; [discriminate|]. apply Nat.eqb_eq in H.
  unfold ptrs. simpl. rewrite map_app, in_app_iff. simpl. auto.
Qed.
Lemma is_node_root : forall c (l : tree) e r, is_node (T c l e r) (Some (eptr e)) = true.
Proof. intros; simpl. apply Nat.eqb_refl. Qed.

Lemma not_node : forall (t : tree) p, ~ In p (ptrs t) -> is_node t (Some p) = false.
Proof.
  intros t p H. destruct (is_node t (Some p)) eqn:E; auto. apply is_node_in in E. contradiction.
Qed.

Lemma ptrs_T : forall c (l : tree) e r, ptrs (T c l e r) = ptrs r ++ eptr e :: ptrs l.
Proof. intros; unfold ptrs; simpl; rewrite map_app; reflexivity. Qed.

Lemma post_main : forall (t : tree) c l e r, t = T c l e r -> forall p st es,
  (length st + 2 * height t < 195)%nat ->
  NoDup (ptrs t) -> ~ In p (ptrs l) -> ~ In p (ptrs r) ->
  Outs (Some (eptr e)) st es ->
  Outs (Some p) (Some t :: st) (tree_postorder t ++ es).
Proof.
  induction t as [|c0 l0 IHl e0 r0 IHr]; intros c l e r Ht p st es HL HN Hpl Hpr HO; [discriminate|].
  inversion Ht; subst; clear Ht.
  rewrite ptrs_T in HN. pose proof HN as HN'. apply NoDup_remove in HN'. destruct HN' as [HN1 HN2].
  rewrite in_app_iff in HN2.
  assert (HNr : NoDup (ptrs r)) by (clear -HN; induction (ptrs r); [constructor|]; simpl in HN; inversion HN; subst; constructor; auto; rewrite in_app_iff in *; tauto).
  assert (HNl : NoDup (ptrs l)) by (clear -HN1; induction (ptrs r); simpl in HN1; auto; inversion HN1; auto).
  assert (Hdis : forall x, In x (ptrs r) -> In x (ptrs l) -> False).
  { clear -HN1. induction (ptrs r); simpl in *; [tauto|]. inversion HN1; subst.
    intros x [->|H] Hl; eauto. apply H1. rewrite in_app_iff; auto. }
  cbn [height] in HL.
  cbn [tree_postorder]. rewrite <- !app_assoc. cbn [app].
  destruct l as [|lc ll le lr], r as [|rc rl re rr].
  - cbn [tree_postorder app]. apply Outs_pop; auto; try lia.
  - (* only right *)
    apply Outs_expand; try lia.
    { rewrite (not_node (T rc rl re rr)) by auto. reflexivity. }
    cbn [push1]. 
    assert (~ In p (ptrs rl) /\ ~ In p (ptrs rr)) as [A1 A2].
    { rewrite ptrs_T, in_app_iff in Hpr. simpl in Hpr. tauto. }
    eapply IHr; eauto. { cbn [length height] in *. lia. }
    cbn [tree_postorder app]. apply Outs_pop; auto; try lia.
    rewrite is_node_root. reflexivity.
  - (* only left *)
    apply Outs_expand; try lia.
    { rewrite (not_node (T lc ll le lr)) by auto. reflexivity. }
    cbn [push1]. cbn [tree_postorder app].
    assert (~ In p (ptrs ll) /\ ~ In p (ptrs lr)) as [A1 A2].
    { rewrite ptrs_T, in_app_iff in Hpl. simpl in Hpl. tauto. }
    eapply IHl; eauto. { cbn [length height] in *. lia. }
    apply Outs_pop; auto; try lia.
    rewrite is_node_root. reflexivity.
  - apply Outs_expand; try lia.
    { rewrite (not_node (T lc ll le lr)) by auto. rewrite (not_node (T rc rl re rr)) by auto. reflexivity. }
    cbn [push1].
    assert (~ In p (ptrs rl) /\ ~ In p (ptrs rr)) as [A1 A2].
    { rewrite ptrs_T, in_app_iff in Hpr. simpl in Hpr. tauto. }
    eapply IHr; eauto. { cbn [length height] in *. lia. }
    assert (Hre : ~ In (eptr re) (ptrs (T lc ll le lr))).
    { intros Hx. apply (Hdis (eptr re)); auto. rewrite ptrs_T, in_app_iff. simpl; auto. }
    assert (~ In (eptr re) (ptrs ll) /\ ~ In (eptr re) (ptrs lr)) as [B1 B2].
    { rewrite ptrs_T, in_app_iff in Hre. simpl in Hre. tauto. }
    eapply IHl; eauto. { cbn [length height] in *. lia. }
    apply Outs_pop; auto; try lia.
    rewrite is_node_root. rewrite orb_true_r. reflexivity.
Qed.

Lemma search_post_complete : forall t : tree, (height t <= 97)%nat -> NoDup (ptrs t) ->
  exists N, forall fuel depth, (N <= fuel)%nat -> (N <= depth)%nat ->
    let '(s, cur) := search_post_first t (search_init t) in
    search_post_all fuel depth cur s = Some (tree_postorder t).
Proof.
  intros [|c l e r] HH HN.
  - exists 1%nat. intros [|f] [|d] H1 H2; try lia. reflexivity.
  - assert (G : Outs (Some (eptr e)) [Some (T c l e r)] (tree_postorder (T c l e r) ++ [])).
    { rewrite ptrs_T in HN. pose proof HN as HN'. apply NoDup_remove in HN'. destruct HN' as [_ HN2].
      rewrite in_app_iff in HN2.
      eapply post_main; eauto; [simpl in *; lia|now rewrite ptrs_T|apply Outs_nil]. }
    rewrite app_nil_r in G. destruct G as (N & G). exists N. intros fuel depth H1 H2.
    cbv [search_post_first search_init]. 
    change (search_space (mkSearch [] 200 true (T c l e r)) 2) with (mkSearch (@nil (option tree)) 200 true (T c l e r)).
    cbn [spush sptrs smax sstatic scur app].
    apply (G fuel depth (T c l e r)); auto.
Qed.
End Post.

(** * Identities (addresses) of entries *)
Section Ptr.
Context {K V : Type}.
Variable P : K -> Prop.
Variable cmp : K -> K -> Z.
Hypothesis TO : total_order P cmp.
Notation tree := (tree K V).
Notation ctx := (ctx K V).
Notation entry := (entry K V).

Definition fresh_ok (t : rbtree K V) : Prop :=
  NoDup (ptrs (root t)) /\ Forall (fun p => (p < nextptr t)%nat) (ptrs (root t)).

Lemma entry_delete_string : forall nc (nl : tree) ne nr c t fr,
  entry_delete KString nc nl ne nr c = Some (t, fr) ->
  tree_inorder t = lo c ++ tree_inorder nr ++ tree_inorder nl ++ hi c /\ fr = ne.
Proof.
  intros nc nl ne nr c t fr H. unfold entry_delete in H.
  destruct nl as [|lc ll le lr].
  { destruct (delete_one_child nc E nr c) eqn:ED; simpl in H; inversion H; subst.
    apply inorder_delete_one_child in ED; auto. }
  destruct nr as [|rc rl re rr].
  { destruct (delete_one_child nc (T lc ll le lr) E c) eqn:ED; simpl in H; inversion H; subst.
    apply inorder_delete_one_child in ED; auto. }
  destruct (maximum_node (T lc ll le lr) []) as [[[[[pc pl] pe] pr] cin]|] eqn:EM; [|discriminate].
  apply maximum_node_spec in EM. destruct EM as (cin' & Hc & Hpr & Hpl & Hlo).
  rewrite app_nil_r in Hc; subst cin' pr. cbv zeta in H.
  destruct (delete_one_child pc pl E _) as [t1|] eqn:ED; cbn [obind] in H; inversion H; subst. split; auto.
  apply inorder_delete_one_child in ED; auto. rewrite ED, lo_app, hi_app, Hlo.
  rewrite <- Hpl, inorder_plug, Hlo. cbn.
  repeat (rewrite <- ?app_assoc; cbn); reflexivity.
Qed.

Lemma perm_mid2 : forall {A} (a b d : list A) x, Permutation (a ++ b ++ x :: d) (x :: a ++ b ++ d).
Proof. intros A a b d x. rewrite !app_assoc. symmetry. apply Permutation_middle. Qed.
Lemma perm_mid3 : forall {A} (a b : list A) y x d,
  Permutation (a ++ b ++ y :: x :: d) (x :: a ++ b ++ y :: d).
Proof.
  intros. change (y :: x :: d) with ([y] ++ x :: d). change (y :: d) with ([y] ++ d).
  rewrite !app_assoc. symmetry. apply Permutation_middle.
Qed.

Lemma entry_delete_word_ptrs : forall nc (nl : tree) ne nr c t fr,
  entry_delete KWord nc nl ne nr c = Some (t, fr) ->
  Permutation (map (@eptr K V) (lo c ++ tree_inorder nr ++ ne :: tree_inorder nl ++ hi c))
              (eptr fr :: map (@eptr K V) (tree_inorder t)) /\
  kv fr = kv ne.
Proof.
  intros nc nl ne nr c t fr H. unfold entry_delete in H.
  assert (HS : forall t, tree_inorder t = lo c ++ tree_inorder nr ++ tree_inorder nl ++ hi c ->
    Permutation (map (@eptr K V) (lo c ++ tree_inorder nr ++ ne :: tree_inorder nl ++ hi c))
              (eptr ne :: map (@eptr K V) (tree_inorder t))).
  { intros t0 ->. rewrite <- map_cons. apply Permutation_map.
    apply perm_mid2. }
  destruct nl as [|lc ll le lr].
  { destruct (delete_one_child nc E nr c) eqn:ED; simpl in H; inversion H; subst.
    apply inorder_delete_one_child in ED; auto. }
  destruct nr as [|rc rl re rr].
  { destruct (delete_one_child nc (T lc ll le lr) E c) eqn:ED; simpl in H; inversion H; subst.
    apply inorder_delete_one_child in ED; auto. }
  clear HS.
  destruct (maximum_node (T lc ll le lr) []) as [[[[[pc pl] pe] pr] cin]|] eqn:EM; [|discriminate].
  apply maximum_node_spec in EM. destruct EM as (cin' & Hc & Hpr & Hpl & Hlo).
  rewrite app_nil_r in Hc; subst cin' pr. cbv zeta in H.
  destruct (delete_one_child pc pl E _) as [t1|] eqn:ED; cbn [obind] in H; inversion H; subst. split; auto.
  apply inorder_delete_one_child in ED; auto. rewrite ED, lo_app, hi_app, Hlo.
  rewrite <- Hpl, inorder_plug, Hlo.
  set (R := tree_inorder (T rc rl re rr)). cbn [tree_inorder lo fside fent foth hi app].
  fold R. rewrite !map_app. cbn [map]. rewrite !map_app. cbn [map eptr].
  repeat (rewrite <- !app_assoc; cbn [app]).
  rewrite (perm_mid3 (map (@eptr K V) (lo c)) (map (@eptr K V) R) (eptr ne) (eptr pe)).
  apply perm_skip. unfold R; cbn [tree_inorder]. repeat (rewrite ?map_app, <- ?app_assoc; cbn [map app eptr]). reflexivity.
Qed.

Lemma fresh_new : fresh_ok (tree_new (K := K) (V := V)).
Proof. split; constructor. Qed.

Lemma fresh_set : forall k v t t', fresh_ok t -> tree_set cmp k v t = Some t' -> fresh_ok t'.
Proof.
  intros k v t t' [H1 H2] H. unfold tree_set in H.
  destruct (tree_find cmp k (root t)) as [e0|] eqn:EF.
  - inversion H; subst. unfold fresh_ok; cbn [root nextptr].
    assert (ptrs (set_value cmp k v (root t)) = ptrs (root t)) as ->; [|auto].
    unfold set_value. destruct (find_path cmp k (root t) []) as [[[[[tc l] e] r] c]|] eqn:EP; auto.
    apply find_path_some in EP. destruct EP as [EP _]. simpl in EP. rewrite <- EP.
    unfold ptrs. rewrite !inorder_plug. simpl. rewrite !map_app. simpl. rewrite ?map_app. reflexivity.
  - destruct (insert_path cmp k (root t) []) as [c|] eqn:EI; cbn [obind] in H; [|discriminate].
    destruct (insert_case1 _ c) as [r'|] eqn:EC; cbn [obind] in H; inversion H; subst.
    apply inorder_insert_case1 in EC. cbn [tree_inorder app] in EC.
    assert (EL : tree_inorder (root t) = lo c ++ hi c).
    { assert (G : forall (tt : tree) cc c', insert_path cmp k tt cc = Some c' -> plug c' E = plug cc tt).
      { induction tt as [|xc xl IHl xe xr IHr]; intros cc c' HH; cbn [insert_path] in HH; [now inversion HH|].
        destruct (cmp (ekey xe) k =? 0); [discriminate|].
        destruct (cmp (ekey xe) k <? 0); [apply IHl in HH|apply IHr in HH]; exact HH. }
      apply G in EI. simpl in EI. rewrite <- EI, inorder_plug. reflexivity. }
    unfold fresh_ok, ptrs in *; cbn [root nextptr]. rewrite EC, EL in *. rewrite !map_app in *. cbn [map eptr].
    split.
    + apply NoDup_Add with (a := nextptr t) (l := map (@eptr K V) (lo c) ++ map (@eptr K V) (hi c)).
      * apply Add_app.
      * split; auto. intros HI. rewrite Forall_forall in H2. apply H2 in HI. lia.
    + rewrite Forall_app in *. destruct H2 as [H2 H3].
      split; [|constructor]; try (eapply Forall_impl; [|eassumption]; simpl; intros; lia). lia.
Qed.

Lemma fresh_unset : forall kt k t t' b, kt <> KStruct -> fresh_ok t ->
  tree_unset cmp kt k t = Some (t', b) -> fresh_ok t'.
Proof.
  intros kt k t t' b Hkt [H1 H2] H. unfold tree_unset in H.
  destruct (find_path cmp k (root t) []) as [[[[[nc nl] ne] nr] c]|] eqn:EP; [|inversion H; subst; split; auto].
  destruct (entry_delete kt nc nl ne nr c) as [[r' fr]|] eqn:ED; cbn [obind] in H; inversion H; subst.
  apply find_path_some in EP. destruct EP as [EP _]. simpl in EP.
  assert (HPm : Permutation (ptrs (root t)) (eptr fr :: ptrs r')).
  { rewrite <- EP. unfold ptrs. rewrite inorder_plug. cbn [tree_inorder]. rewrite <- app_assoc. cbn [app].
    destruct kt; [| |congruence].
    - apply entry_delete_string in ED. destruct ED as [-> ->].
      rewrite <- map_cons. apply Permutation_map.
      rewrite app_assoc. rewrite <- Permutation_middle. now rewrite <- app_assoc.
    - apply entry_delete_word_ptrs in ED. apply ED. }
  split; cbn [root nextptr].
  - apply (Permutation_NoDup HPm) in H1. now inversion H1.
  - apply (Permutation_Forall HPm) in H2. now inversion H2.
Qed.

Lemma fresh_run : forall kt ops t t', kt <> KStruct -> fresh_ok t ->
  run cmp kt ops t = Some t' -> fresh_ok t'.
Proof.
  intros kt ops. induction ops as [|o ops IH]; intros t t' Hkt HF H; simpl in H.
  - inversion H; subst; auto.
  - destruct (run_op cmp kt o t) as [t1|] eqn:E1; cbn [obind] in H; [|discriminate].
    apply (IH t1); auto. destruct o as [k v|k]; cbn [run_op] in E1.
    + eapply fresh_set; eauto.
    + destruct (tree_unset cmp kt k t) as [[t2 b]|] eqn:E2; cbn [obind] in E1; inversion E1; subst.
      eapply fresh_unset; eauto.
Qed.

(** String-key trees: an entry keeps its address until its key is deleted. *)
Lemma stable_step : forall o t t' (e : entry), wf P cmp t -> P (op_key o) ->
  run_op cmp KString o t = Some t' ->
  In e (tree_inorder (root t)) -> (forall k, o = OpUnset k -> k <> ekey e) ->
  exists v, In (mkEntry (eptr e) (ekey e) v) (tree_inorder (root t')).
Proof.
  intros o t t' e (HS & _ & _) HP H Hin Hno.
  assert (He : mkEntry (eptr e) (ekey e) (eval e) = e) by (destruct e; reflexivity). destruct o as [k v|k]; cbn [run_op op_key] in *.
  - unfold tree_set, tree_find in H. destruct (find_path cmp k (root t) []) as [[[[[tc l] e1] r] c]|] eqn:EP.
    + inversion H; subst; cbn [root]. unfold set_value. rewrite EP.
      apply find_path_some in EP. destruct EP as [EP _]. simpl in EP. rewrite <- EP in Hin.
      rewrite inorder_plug in *. cbn [tree_inorder] in *. rewrite !in_app_iff in *. cbn [In] in *.
      destruct Hin as [Hin|[[Hin|[Hin|Hin]]|Hin]]; try (exists (eval e); rewrite He, !in_app_iff; cbn [In]; tauto).
      subst e1. exists v. rewrite !in_app_iff; cbn [In]. tauto.
    + destruct (insert_path cmp k (root t) []) as [c|] eqn:EI; cbn [obind] in H; [|discriminate].
      destruct (insert_case1 _ c) as [r'|] eqn:EC; cbn [obind] in H; inversion H; subst; cbn [root].
      apply inorder_insert_case1 in EC. cbn [tree_inorder app] in EC.
      assert (EL : tree_inorder (root t) = lo c ++ hi c).
      { assert (G : forall (tt : tree) cc c', insert_path cmp k tt cc = Some c' -> plug c' E = plug cc tt).
        { induction tt as [|xc xl IHl xe xr IHr]; intros cc c' HH; cbn [insert_path] in HH; [now inversion HH|].
          destruct (cmp (ekey xe) k =? 0); [discriminate|].
          destruct (cmp (ekey xe) k <? 0); [apply IHl in HH|apply IHr in HH]; exact HH. }
        apply G in EI. simpl in EI. rewrite <- EI, inorder_plug. reflexivity. }
      exists (eval e). rewrite EC. rewrite EL in Hin. rewrite in_app_iff in *. cbn [In]. destruct e; simpl; tauto.
  - unfold tree_unset in H. destruct (find_path cmp k (root t) []) as [[[[[nc nl] ne] nr] c]|] eqn:EP.
    + destruct (entry_delete KString nc nl ne nr c) as [[r' fr]|] eqn:ED; cbn [obind] in H; inversion H; subst; cbn [root].
      apply find_path_some in EP. destruct EP as [EP HK]. simpl in EP.
      apply entry_delete_string in ED. destruct ED as [ED _]. rewrite ED.
      assert (HPn : P (ekey ne)).
      { eapply sorted_in_P; [exact HS|]. rewrite <- EP, inorder_plug. cbn [tree_inorder]. rewrite !in_app_iff. simpl; auto. }
      rewrite <- EP in Hin. rewrite inorder_plug in Hin. cbn [tree_inorder] in Hin.
      exists (eval e). rewrite !in_app_iff in *. cbn [In] in *. destruct e as [p0 k0 v0]; cbn [eptr ekey eval] in *.
      destruct Hin as [Hin|[[Hin|[Hin|Hin]]|Hin]]; try tauto.
      exfalso. apply (Hno k); auto. subst ne. cbn [ekey] in *.
      symmetry. apply (cmp_eq _ _ TO); auto.
    + cbn [obind] in H. inversion H; subst. exists (eval e). destruct e; auto.
Qed.

Lemma stable_run : forall ops t t' (e : entry), wf P cmp t -> Forall (fun o => P (op_key o)) ops ->
  run cmp KString ops t = Some t' ->
  In e (tree_inorder (root t)) -> ~ In (OpUnset (ekey e)) ops ->
  exists v, In (mkEntry (eptr e) (ekey e) v) (tree_inorder (root t')).
Proof.
  induction ops as [|o ops IH]; intros t t' e HW HP H Hin Hno; simpl in H.
  - inversion H; subst. exists (eval e). destruct e; auto.
  - destruct (run_op cmp KString o t) as [t1|] eqn:E1; cbn [obind] in H; [|discriminate].
    inversion HP as [|? ? Ho HP']; subst.
    destruct (stable_step o t t1 e) as (v1 & Hin1); auto.
    { intros k -> ->. apply Hno. left; auto. }
    assert (HW1 : wf P cmp t1).
    { eapply (step_wf P cmp TO); eauto. discriminate. }
    apply (IH t1 t' (mkEntry (eptr e) (ekey e) v1)); auto. cbn [ekey]. intros HI. apply Hno. right; auto.
Qed.
End Ptr.
