From Coq Require Import ZArith List Bool Lia Sorting.Sorted Permutation.
Import ListNotations.
From Verif Require Import TreeModel TreeSpec TreeProofs TreeProofs2.
Local Open Scope Z_scope.

Section Iter.
Context {K V : Type}.
Notation tree := (tree K V).
Notation entry := (entry K V).
Notation search := (search K V).

(** ** in-order search *)
(** what remains to be listed, stack given top first *)
Fixpoint rem_stack (st : list (option tree)) : list entry :=
  match st with
  | Some (T _ l e _) :: st' => e :: tree_inorder l ++ rem_stack st'
  | _ => []
  end.

(** stack (top first) is made of nodes; the item with n items below it has height <= H - n *)
Fixpoint stack_ok (H : nat) (st : list (option tree)) : Prop :=
  match st with
  | [] => True
  | Some (T c l e r) :: st' => (length st' + height (T c l e r) <= H)%nat /\ stack_ok H st'
  | _ => False
  end.

Lemma no_growth : forall (s : search) H, (H + 2 < 200)%nat -> smax s = 200%nat ->
  (length (sptrs s) <= H)%nat -> search_space s 2 = s.
Proof.
  intros s H H1 H2 H3. unfold search_space. rewrite H2.
  destruct (Nat.leb 200 (length (sptrs s) + 2)) eqn:E; auto. apply Nat.leb_le in E. lia.
Qed.

Lemma search_in_step : forall H (cur : tree) st fuel, (H + 2 < 200)%nat ->
  (length st + height cur <= H)%nat -> stack_ok H st -> (height cur < fuel)%nat ->
  match tree_inorder cur ++ rem_stack st with
  | [] => search_in fuel (mkSearch (rev st) 200 true cur) = SEnd
  | e :: rest => exists cur' st', search_in fuel (mkSearch (rev st) 200 true cur)
                      = SEntry e (mkSearch (rev st') 200 true cur') /\
                   (length st' + height cur' <= H)%nat /\ stack_ok H st' /\
                   rest = tree_inorder cur' ++ rem_stack st'
  end.
Proof.
  intros H cur. induction cur as [|c l IHl e r IHr]; intros st fuel HH HL HS HF.
  - simpl tree_inorder. destruct fuel as [|f]; [lia|]. cbn [search_in].
    rewrite (no_growth _ H); auto; [|simpl; rewrite rev_length; simpl in HL; lia].
    cbn [scur sptrs smax sstatic]. rewrite rev_involutive.
    destruct st as [|[[|c l e r]|] st']; simpl in HS; try contradiction; simpl.
    + reflexivity.
    + destruct HS as [HS1 HS2]. exists l, st'. repeat split; auto. lia.
  - destruct fuel as [|f]; [lia|].
    cbn [height] in HL, HF.
    specialize (IHr (Some (T c l e r) :: st) f HH).
    assert (G : search_in (S f) (mkSearch (rev st) 200 true (T c l e r)) =
                search_in f (mkSearch (rev (Some (T c l e r) :: st)) 200 true r)).
    { cbn [search_in]. rewrite (no_growth _ H); auto. simpl. rewrite rev_length. lia. }
    rewrite G.
    replace (tree_inorder (T c l e r) ++ rem_stack st)
      with (tree_inorder r ++ rem_stack (Some (T c l e r) :: st))
      by (cbn [tree_inorder rem_stack]; rewrite <- app_assoc; reflexivity).
    apply IHr; cbn [length]; try lia.
    cbn [stack_ok height]. split; [lia|auto].
Qed.

Lemma search_in_all_ok : forall es H depth (cur : tree) st fuel, (H + 2 < 200)%nat ->
  (H < depth)%nat -> (length es < fuel)%nat ->
  (length st + height cur <= H)%nat -> stack_ok H st ->
  es = tree_inorder cur ++ rem_stack st ->
  search_in_all fuel depth (mkSearch (rev st) 200 true cur) = Some es.
Proof.
  induction es as [|e es IH]; intros H depth cur st fuel HH HD HF HL HS HE.
  - destruct fuel as [|f]; [simpl in HF; lia|]. cbn [search_in_all].
    pose proof (search_in_step H cur st depth HH HL HS) as G. rewrite <- HE in G.
    rewrite G by lia. reflexivity.
  - destruct fuel as [|f]; [simpl in HF; lia|]. cbn [search_in_all].
    pose proof (search_in_step H cur st depth HH HL HS) as G. rewrite <- HE in G.
    destruct G as (cur' & st' & E1 & L1 & S1 & R1); [lia|].
    rewrite E1. erewrite IH; eauto. simpl in HF; lia.
Qed.

Lemma search_in_complete : forall (t : tree) fuel depth,
  (height t <= 197)%nat -> (height t < depth)%nat -> (length (tree_inorder t) < fuel)%nat ->
  search_in_all fuel depth (search_init t) = Some (tree_inorder t).
Proof.
  intros t fuel depth H1 H2 H3. unfold search_init.
  change (@nil (option tree)) with (rev (@nil (option tree))).
  apply (search_in_all_ok _ (height t)); try lia; simpl; auto; try lia.
  now rewrite app_nil_r.
Qed.

(** ** level-order search *)
Fixpoint nodes_of (q : list (option tree)) : list entry :=
  match q with
  | [] => []
  | Some t :: q' => tree_inorder t ++ nodes_of q'
  | None :: q' => nodes_of q'
  end.
Definition queue_ok (q : list (option tree)) : Prop :=
  Forall (fun o => exists c l e r, o = Some (T c l e r)) q.

Lemma queue_len : forall q, queue_ok q -> (length q <= length (nodes_of q))%nat.
Proof.
  induction 1 as [|o q Ho Hq IH]; simpl; auto. destruct Ho as (c & l & e & r & ->).
  rewrite app_length. simpl. rewrite app_length. simpl. lia.
Qed.

Lemma nodes_of_app : forall a b, nodes_of (a ++ b) = nodes_of a ++ nodes_of b.
Proof.
  induction a as [|[t|] a IH]; intros b; simpl; auto. now rewrite IH, app_assoc.
Qed.

Lemma spush_ok : forall (t : tree) s, queue_ok (sptrs s) ->
  queue_ok (sptrs (spush t s)) /\ smax (spush t s) = smax s /\ sstatic (spush t s) = sstatic s /\
  nodes_of (sptrs (spush t s)) = nodes_of (sptrs s) ++ tree_inorder t.
Proof.
  intros [|c l e r] s H; simpl; repeat split; auto.
  - now rewrite app_nil_r.
  - apply Forall_app; split; auto. constructor; auto. exists c, l, e, r; auto.
  - rewrite nodes_of_app. simpl. now rewrite app_nil_r.
Qed.

Lemma search_level_all_ok : forall n q fuel (cur : tree), queue_ok q ->
  (length (nodes_of q) <= n)%nat -> (n + 2 < 200)%nat -> (n < fuel)%nat ->
  exists es, search_level_all fuel None (mkSearch q 200 true cur) = Some es /\
             Permutation es (nodes_of q).
Proof.
  induction n as [|n IH]; intros q fuel cur HQ HN H2 HF;
    (destruct fuel as [|f]; [lia|]); cbn [search_level_all]; unfold search_level;
    rewrite (no_growth _ (length (nodes_of q))); auto; simpl; try (pose proof (queue_len _ HQ); lia).
  - destruct q as [|o q]; [exists []; auto|].
    exfalso. pose proof (queue_len _ HQ). simpl in *. lia.
  - destruct q as [|o q]; [exists []; auto|].
    inversion HQ as [|? ? Ho HQ']; subst. destruct Ho as (c & l & e & r & ->).
    set (s0 := mkSearch q 200 true cur).
    destruct (spush_ok r s0 HQ') as (A1 & A2 & A3 & A4).
    destruct (spush_ok l (spush r s0) A1) as (B1 & B2 & B3 & B4).
    rewrite A4 in B4. simpl in B4.
    assert (exists x, scur (spush l (spush r s0)) = x) as (x & Hx) by eauto.
    destruct (spush l (spush r s0)) as [qq mm ss cc] eqn:Es. simpl in *.
    rewrite A2 in B2. rewrite A3 in B3. unfold s0 in B2, B3; simpl in B2, B3. subst mm ss.
    destruct (IH qq f cc) as (es & E1 & P1); auto; try lia.
    { rewrite B4. rewrite !app_length in *. simpl in HN. rewrite ?app_length in HN. simpl in HN. lia. }
    rewrite E1; cbn [obind]. exists (e :: es). split; auto.
    rewrite P1, B4. rewrite <- !app_assoc. cbn [app].
    rewrite <- Permutation_middle. apply perm_skip.
    rewrite Permutation_app_comm. now rewrite <- app_assoc.
Qed.

Lemma search_level_complete : forall (t : tree) fuel,
  (length (tree_inorder t) <= 197)%nat -> (length (tree_inorder t) < fuel)%nat ->
  exists es, search_level_all fuel (Some t) (search_init t) = Some es /\
             Permutation es (tree_inorder t).
Proof.
  intros [|c l e r] fuel H1 H2.
  - destruct fuel; [simpl in H2; lia|]. exists []; split; auto.
  - destruct fuel as [|f]; [lia|]. cbn [search_level_all]. unfold search_level, search_init.
    rewrite (no_growth _ 0); auto; try (simpl; lia).
    set (s0 := mkSearch [] 200 true (T c l e r)).
    destruct (spush_ok r s0) as (A1 & A2 & A3 & A4); [constructor|].
    destruct (spush_ok l (spush r s0) A1) as (B1 & B2 & B3 & B4).
    rewrite A4 in B4. simpl in B4.
    destruct (spush l (spush r s0)) as [qq mm ss cc] eqn:Es. simpl in *.
    rewrite A2 in B2. rewrite A3 in B3. unfold s0 in B2, B3; simpl in B2, B3. subst mm ss.
    rewrite app_length in *. simpl in *.
    destruct (search_level_all_ok (length (nodes_of qq)) qq f cc) as (es & E1 & P1); auto;
      try (rewrite B4, app_length; lia).
    rewrite E1; cbn [obind]. exists (e :: es). split; auto.
    rewrite P1, B4. now rewrite <- Permutation_middle.
Qed.

(** ** recursive walks *)
Lemma preorder_perm : forall t : tree, Permutation (tree_preorder t) (tree_inorder t).
Proof.
  induction t as [|c l IHl e r IHr]; simpl; auto. rewrite IHl, IHr. apply Permutation_middle.
Qed.
Lemma postorder_perm : forall t : tree, Permutation (tree_postorder t) (tree_inorder t).
Proof.
  induction t as [|c l IHl e r IHr]; simpl; auto. rewrite IHl, IHr.
  apply Permutation_app_head. rewrite Permutation_app_comm. reflexivity.
Qed.

(** level [n] *)
Fixpoint level (n : nat) (t : tree) {struct t} : list entry :=
  match t with
  | E => []
  | T _ l e r => match n with O => [e] | S m => level m r ++ level m l end
  end.
Lemma levelorder_level : forall (t : tree) cur n,
  tree_levelorder t cur n = if Nat.ltb n cur then [] else level (n - cur) t.
Proof.
  induction t as [|c l IHl e r IHr]; intros cur n; simpl.
  - destruct (Nat.ltb n cur); reflexivity.
  - destruct (Nat.ltb n cur) eqn:E1; auto. apply Nat.ltb_ge in E1.
    rewrite IHl, IHr.
    destruct (Nat.eqb cur n) eqn:E2.
    + apply Nat.eqb_eq in E2. subst. rewrite Nat.sub_diag.
      replace (Nat.ltb n (S n)) with true by (symmetry; apply Nat.ltb_lt; lia). reflexivity.
    + apply Nat.eqb_neq in E2.
      replace (Nat.ltb n (S cur)) with false by (symmetry; apply Nat.ltb_ge; lia).
      destruct (n - cur)%nat as [|m] eqn:E3; [lia|].
      replace (n - S cur)%nat with m by lia. reflexivity.
Qed.
Fixpoint levels (t : tree) (from cnt : nat) : list entry :=
  match cnt with O => [] | S c => level from t ++ levels t (S from) c end.
Lemma level_beyond : forall (t : tree) n, (height t <= n)%nat -> level n t = [].
Proof.
  induction t as [|c l IHl e r IHr]; intros n H; simpl in *; auto.
  destruct n; [lia|]. rewrite IHl, IHr by lia. reflexivity.
Qed.
Lemma level_nonempty : forall (t : tree) n, (n < height t)%nat -> level n t <> [].
Proof.
  induction t as [|c l IHl e r IHr]; intros n H; simpl in *; [lia|].
  destruct n; [discriminate|]. intros G. apply app_eq_nil in G. destruct G as [G1 G2].
  destruct (Nat.max_spec (height l) (height r)) as [[_ E]|[_ E]]; rewrite E in H.
  - apply (IHr n); auto; lia.
  - apply (IHl n); auto; lia.
Qed.
Lemma levels_shift : forall c l e r cnt from,
  Permutation (levels (T c l e r) (S from) cnt) (levels r from cnt ++ levels l from cnt).
Proof.
  intros c l e r cnt. induction cnt as [|cnt IH]; intros from; simpl; auto.
  change (levels (T c l e r) (S (S from)) cnt) with (levels (T c l e r) (S (S from)) cnt).
  rewrite IH. rewrite <- !app_assoc. apply Permutation_app_head.
  rewrite !app_assoc. apply Permutation_app_tail. apply Permutation_app_comm.
Qed.
Lemma levels_perm : forall (t : tree) cnt, (height t <= cnt)%nat ->
  Permutation (levels t 0 cnt) (tree_inorder t).
Proof.
  induction t as [|c l IHl e r IHr]; intros cnt H; simpl in H.
  - assert (forall n f, levels (@E K V) f n = []) as ->; [|constructor].
    induction n; intros; simpl; auto.
  - destruct cnt; [lia|]. cbn [levels level]. rewrite levels_shift.
    rewrite IHl, IHr by lia. simpl. apply Permutation_middle.
Qed.
Lemma walk_level_levels : forall fuel (t : tree) n, (height t - n < fuel)%nat ->
  tree_walk_level fuel t n = Some (levels t n (height t - n)).
Proof.
  induction fuel as [|f IH]; intros t n H; cbn [tree_walk_level].
  - lia.
  - rewrite levelorder_level. cbn [Nat.ltb Nat.leb]. rewrite Nat.sub_0_r.
    destruct (level n t) as [|x xs] eqn:EL.
    + destruct (Nat.lt_ge_cases n (height t)) as [G|G].
      { apply level_nonempty in G. congruence. }
      replace (height t - n)%nat with 0%nat by lia. reflexivity.
    + assert (n < height t)%nat.
      { destruct (Nat.lt_ge_cases n (height t)) as [G|G]; auto. apply level_beyond in G. congruence. }
      rewrite IH by lia. cbn [obind].
      replace (height t - n)%nat with (S (height t - S n)) by lia. cbn [levels]. now rewrite EL.
Qed.
End Iter.
