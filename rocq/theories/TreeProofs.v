From Coq Require Import ZArith List Bool Lia Sorting.Sorted Permutation.
Import ListNotations.
From Verif Require Import TreeModel TreeSpec.
Local Open Scope Z_scope.

Section Proofs.
Context {K V : Type}.
Notation tree := (tree K V).
Notation ctx := (ctx K V).
Notation entry := (entry K V).

(** * Order-independent facts about the in-order listing *)
Fixpoint lo (c : ctx) : list entry :=
  match c with
  | [] => []
  | f :: c' => match fside f with
               | LeftOf => lo c' ++ tree_inorder (foth f) ++ [fent f]
               | RightOf => lo c'
               end
  end.
Fixpoint hi (c : ctx) : list entry :=
  match c with
  | [] => []
  | f :: c' => match fside f with
               | LeftOf => hi c'
               | RightOf => fent f :: tree_inorder (foth f) ++ hi c'
               end
  end.

Lemma inorder_plug : forall (c : ctx) t,
  tree_inorder (plug c t) = lo c ++ tree_inorder t ++ hi c.
Proof.
  induction c as [|f c IH]; intros t; simpl.
  - now rewrite app_nil_r.
  - rewrite IH. destruct f as [s fc fe fo]; destruct s; simpl; unfold fill; simpl;
      repeat rewrite <- app_assoc; simpl; repeat rewrite <- app_assoc; reflexivity.
Qed.

Lemma inorder_set_color : forall (t : tree) c t', set_color t c = Some t' ->
  tree_inorder t' = tree_inorder t.
Proof. intros [|tc l e r] c t'; destruct c; simpl; intros H; inversion H; reflexivity. Qed.

Ltac norm := repeat (rewrite <- app_assoc || simpl); auto.

Lemma inorder_rotate_left : forall t t' : tree, rotate_left t = Some t' ->
  tree_inorder t' = tree_inorder t.
Proof.
  intros [|tc l e [|rc rl re rr]] t'; simpl; intros H; inversion H; subst; simpl. norm.
Qed.
Lemma inorder_rotate_right : forall t t' : tree, rotate_right t = Some t' ->
  tree_inorder t' = tree_inorder t.
Proof.
  intros [|tc [|lc ll le lr] e r] t'; simpl; intros H; inversion H; subst; simpl. norm.
Qed.

Lemma inorder_fill_col : forall s c c' (e : entry) o t,
  tree_inorder (fill (mkFrame s c e o) t) = tree_inorder (fill (mkFrame s c' e o) t).
Proof. intros []; reflexivity. Qed.

Lemma inorder_fill_arg : forall (f : frame K V) t t', tree_inorder t = tree_inorder t' ->
  tree_inorder (fill f t) = tree_inorder (fill f t').
Proof. intros [[] c e o] t t' H; unfold fill; simpl; now rewrite H. Qed.

Lemma inorder_case5 : forall (n : tree) p g t, insert_case5 n p g = Some t ->
  tree_inorder t = tree_inorder (fill g (fill p n)).
Proof.
  intros n [ps pc pe po] [gs gc ge go] t H. unfold insert_case5 in H; simpl in H.
  rewrite (inorder_fill_col gs gc Red).
  transitivity (tree_inorder (fill (mkFrame gs Red ge go) (fill (mkFrame ps Black pe po) n))).
  - destruct ps; [eapply inorder_rotate_right | eapply inorder_rotate_left]; eauto.
  - apply inorder_fill_arg, inorder_fill_col.
Qed.

Lemma inorder_case4 : forall (n : tree) p g t, insert_case4 n p g = Some t ->
  tree_inorder t = tree_inorder (fill g (fill p n)).
Proof.
  intros n p g t H. unfold insert_case4 in H.
  destruct (fside p) eqn:Ep, (fside g) eqn:Eg;
    try (apply inorder_case5 in H; exact H).
  - destruct (rotate_right (fill p n)) as [[|c l e r]|] eqn:ER; simpl in H; try discriminate.
    apply inorder_case5 in H. rewrite H. apply inorder_fill_arg. unfold fill at 1; simpl.
    apply inorder_rotate_right in ER. exact ER.
  - destruct (rotate_left (fill p n)) as [[|c l e r]|] eqn:ER; simpl in H; try discriminate.
    apply inorder_case5 in H. rewrite H. apply inorder_fill_arg. unfold fill at 1; simpl.
    apply inorder_rotate_left in ER. exact ER.
Qed.

Lemma inorder_plug_arg : forall (c : ctx) t t', tree_inorder t = tree_inorder t' ->
  tree_inorder (plug c t) = tree_inorder (plug c t').
Proof. intros c t t' H. rewrite !inorder_plug. now rewrite H. Qed.

Lemma inorder_insert_case1_len : forall k (c : ctx) n t, (length c <= k)%nat ->
  insert_case1 n c = Some t -> tree_inorder t = tree_inorder (plug c n).
Proof.
  induction k as [|k IH]; intros c n t Hl H.
  - destruct c; simpl in Hl; [|lia]. simpl in H. apply inorder_set_color in H. exact H.
  - destruct c as [|p c1]; [simpl in H; now apply inorder_set_color in H|].
    cbn [insert_case1] in H.
    destruct (color_eqb (fcol p) Black).
    { inversion H; reflexivity. }
    destruct c1 as [|g c2]; [discriminate|].
    destruct (color_eqb (node_color (foth g)) Red).
    + destruct (set_color (foth g) Black) as [u'|] eqn:EU; simpl in H; [|discriminate H].
      apply IH in H; [|simpl in Hl; lia].
      rewrite H. simpl. apply inorder_plug_arg.
      apply inorder_set_color in EU.
      destruct p as [[] pc pe po], g as [[] gc ge go]; unfold fill; simpl in *; rewrite EU; reflexivity.
    + destruct (insert_case4 n p g) as [t4|] eqn:E4; simpl in H; inversion H; subst.
      simpl. apply inorder_plug_arg. eapply inorder_case4; eauto.
Qed.

Lemma inorder_insert_case1 : forall (c : ctx) n t,
  insert_case1 n c = Some t -> tree_inorder t = lo c ++ tree_inorder n ++ hi c.
Proof. intros. rewrite <- inorder_plug. eapply inorder_insert_case1_len; eauto. Qed.

(** Deletion cases keep [lo] and [hi]. *)
Definition same_lh (c c' : ctx) : Prop := lo c = lo c' /\ hi c = hi c'.

Lemma case6_lh : forall (p : frame K V) c c', delete_case6 p c = Some c' -> same_lh (p :: c) c'.
Proof.
  intros [s pc pe po] c c' H; unfold delete_case6 in H; simpl in H.
  destruct po as [|sc sl se sr]; [discriminate|].
  destruct s.
  - destruct (set_color sr Black) eqn:ES; simpl in H; inversion H; subst.
    apply inorder_set_color in ES. split; simpl; auto. rewrite ES. norm.
  - destruct (set_color sl Black) eqn:ES; simpl in H; inversion H; subst.
    apply inorder_set_color in ES. split; simpl; auto. rewrite ES. norm.
Qed.

Lemma case5_lh : forall (p : frame K V) c c', delete_case5 p c = Some c' -> same_lh (p :: c) c'.
Proof.
  intros [s pc pe po] c c' H; unfold delete_case5 in H; cbn [foth fside fcol fent] in H.
  destruct po as [|sc sl se sr]; [discriminate|].
  destruct (color_eqb sc Black); [|now apply case6_lh in H].
  destruct s.
  - destruct (color_eqb (node_color sr) Black && color_eqb (node_color sl) Red)%bool;
      [|now apply case6_lh in H].
    destruct (set_color sl Black) as [sl'|] eqn:ES; cbn [obind] in H; [|discriminate H].
    destruct (rotate_right (T Red sl' se sr)) as [s'|] eqn:ER; cbn [obind] in H; [|discriminate H].
    apply case6_lh in H. apply inorder_set_color in ES. apply inorder_rotate_right in ER.
    destruct H as [H1 H2]; split; [|exact H2].
    rewrite <- H1; simpl. rewrite ER; simpl. now rewrite ES.
  - destruct (color_eqb (node_color sr) Red && color_eqb (node_color sl) Black)%bool;
      [|now apply case6_lh in H].
    destruct (set_color sr Black) as [sr'|] eqn:ES; cbn [obind] in H; [|discriminate H].
    destruct (rotate_left (T Red sl se sr')) as [s'|] eqn:ER; cbn [obind] in H; [|discriminate H].
    apply case6_lh in H. apply inorder_set_color in ES. apply inorder_rotate_left in ER.
    destruct H as [H1 H2]; split; [exact H1|].
    rewrite <- H2; simpl. rewrite ER; simpl. now rewrite ES.
Qed.

Lemma recol_lh : forall s c1 c2 (e : entry) o o' c c', tree_inorder o = tree_inorder o' ->
  same_lh c c' -> same_lh (mkFrame s c1 e o :: c) (mkFrame s c2 e o' :: c').
Proof.
  intros [] c1 c2 e o o' c c' Ho [H1 H2]; split; simpl; rewrite ?H1, ?H2, ?Ho; reflexivity.
Qed.

Lemma same_refl : forall c : ctx, same_lh c c. Proof. split; reflexivity. Qed.
Lemma same_trans : forall a b c : ctx, same_lh a b -> same_lh b c -> same_lh a c.
Proof. unfold same_lh; intuition congruence. Qed.

Lemma case4_lh : forall (p : frame K V) c c', delete_case4 p c = Some c' -> same_lh (p :: c) c'.
Proof.
  intros p c c' H; unfold delete_case4 in H.
  destruct (color_eqb (fcol p) Red); [|now apply case5_lh in H].
  destruct (sib_all_black (foth p)) as [[|]|]; cbn [obind] in H; [|now apply case5_lh in H|discriminate H].
  destruct (set_color (foth p) Red) as [s'|] eqn:ES; simpl in H; inversion H; subst.
  apply inorder_set_color in ES. destruct p; apply recol_lh; [now symmetry|apply same_refl].
Qed.

Lemma case1_lh : forall fuel (c c' : ctx), delete_case1 fuel c = Some c' -> same_lh c c'.
Proof.
  induction fuel as [|f IH]; intros c c' H.
  - destruct c; simpl in H; inversion H; apply same_refl.
  - destruct c as [|p c1]; [inversion H; apply same_refl|].
    cbn [delete_case1] in H.
    set (case3 := fun (p : frame K V) (c1 : ctx) =>
            if color_eqb (fcol p) Black then
              obind (sib_all_black (foth p)) (fun b =>
              if b then
                obind (set_color (foth p) Red) (fun s' =>
                obind (delete_case1 f c1) (fun c1' =>
                Some (mkFrame (fside p) (fcol p) (fent p) s' :: c1')))
              else delete_case4 p c1)
            else delete_case4 p c1) in *.
    assert (H3 : forall p c1 c', case3 p c1 = Some c' -> same_lh (p :: c1) c').
    { clear H c' p c1. intros p c1 c' H. unfold case3 in H.
      destruct (color_eqb (fcol p) Black); [|now apply case4_lh in H].
      destruct (sib_all_black (foth p)) as [[]|]; cbn [obind] in H; [|now apply case4_lh in H|discriminate H].
      destruct (set_color (foth p) Red) as [s'|] eqn:ES; cbn [obind] in H; [|discriminate H].
      destruct (delete_case1 f c1) as [c1'|] eqn:E1; cbn [obind] in H; inversion H; subst.
      apply inorder_set_color in ES. apply IH in E1.
      destruct p; apply recol_lh; simpl in *; auto. }
    change (match foth p with
          | T Red sl se sr =>
              match fside p with
              | LeftOf  => case3 (mkFrame LeftOf Red (fent p) sl)
                                 (mkFrame LeftOf Black se sr :: c1)
              | RightOf => case3 (mkFrame RightOf Red (fent p) sr)
                                 (mkFrame RightOf Black se sl :: c1)
              end
          | _ => case3 p c1
          end = Some c') in H. clearbody case3.
    destruct p as [s pc pe po]; simpl in H.
    destruct po as [|[] sl se sr]; try (now apply H3 in H).
    destruct s; apply H3 in H; eapply same_trans; try exact H; split; simpl; norm.
Qed.

Lemma inorder_delete_one_child : forall nc (nl nr : tree) c t,
  (nl = E \/ nr = E) ->
  delete_one_child nc nl nr c = Some t ->
  tree_inorder t = lo c ++ tree_inorder nr ++ tree_inorder nl ++ hi c.
Proof.
  intros nc nl nr c t Hor H. unfold delete_one_child in H.
  set (child := match nr with E => nl | _ => nr end) in *.
  assert (Hch : tree_inorder child = tree_inorder nr ++ tree_inorder nl).
  { destruct Hor; subst; simpl; [destruct nr; simpl; rewrite ?app_nil_r; reflexivity|reflexivity]. }
  rewrite (app_assoc (tree_inorder nr)), <- Hch. clearbody child.
  destruct (match nc with Black => delete_case1 (delete_fuel c) c | Red => Some c end) as [c'|] eqn:EC;
    simpl in H; [|discriminate H].
  assert (Hlh : same_lh c c').
  { destruct nc; [inversion EC; apply same_refl|eapply case1_lh; eauto]. }
  destruct Hlh as [-> ->].
  destruct c' as [|f c'].
  - destruct child; [inversion H; reflexivity|].
    apply inorder_set_color in H. rewrite H. simpl. now rewrite app_nil_r.
  - injection H as <-. change (plug c' (fill f child)) with (plug (f :: c') child).
    rewrite inorder_plug. reflexivity.
Qed.

(** Frames produced by walking to the right only. *)
Lemma maximum_node_spec : forall (t : tree) c pc pl pe pr c',
  maximum_node t c = Some (pc, pl, pe, pr, c') ->
  exists cin, c' = cin ++ c /\ pr = E /\ plug cin (T pc pl pe pr) = t /\ lo cin = [].
Proof.
  induction t as [|tc l IHl e r IHr]; intros c pc pl pe pr c' H; simpl in H; [discriminate|].
  destruct r as [|rc rl re rr].
  - inversion H; subst. exists []; auto.
  - apply IHr in H. destruct H as (cin & H1 & H2 & H3 & H4).
    exists (cin ++ [mkFrame RightOf tc e l]). repeat split; auto.
    + rewrite H1, <- app_assoc; reflexivity.
    + clear -H3. assert (G : forall a b t, plug (a ++ b) t = plug b (plug a t) :> tree).
      { induction a; simpl; auto. }
      rewrite G, H3. reflexivity.
    + assert (G : forall a b : ctx, lo (a ++ b) = lo b ++ lo a).
      { induction a as [|f a IH]; intros b; simpl; [now rewrite app_nil_r|].
        destruct (fside f); rewrite IH; auto. now rewrite <- app_assoc. }
      rewrite G, H4. reflexivity.
Qed.

Lemma plug_app : forall (a b : ctx) t, plug (a ++ b) t = plug b (plug a t).
Proof. induction a; simpl; auto. Qed.
Lemma lo_app : forall a b : ctx, lo (a ++ b) = lo b ++ lo a.
Proof.
  induction a as [|f a IH]; intros b; simpl; [now rewrite app_nil_r|].
  destruct (fside f); rewrite IH; auto. now rewrite <- app_assoc.
Qed.
Lemma hi_app : forall a b : ctx, hi (a ++ b) = hi a ++ hi b.
Proof.
  induction a as [|f a IH]; intros b; simpl; auto.
  destruct (fside f); rewrite IH; auto. simpl. now rewrite <- app_assoc.
Qed.

(** Same key/value content. *)
Definition kv (e : entry) : K * V := (ekey e, eval e).

Lemma inorder_entry_delete : forall kt nc (nl : tree) ne nr c t fr,
  kt <> KStruct ->
  entry_delete kt nc nl ne nr c = Some (t, fr) ->
  map kv (tree_inorder t) =
  map kv (lo c ++ tree_inorder nr ++ tree_inorder nl ++ hi c).
Proof.
  intros kt nc nl ne nr c t fr Hkt H. unfold entry_delete in H.
  destruct nl as [|lc ll le lr].
  { destruct (delete_one_child nc E nr c) eqn:ED; simpl in H; inversion H; subst.
    apply inorder_delete_one_child in ED; auto. now rewrite ED. }
  destruct nr as [|rc rl re rr].
  { destruct (delete_one_child nc (T lc ll le lr) E c) eqn:ED; simpl in H; inversion H; subst.
    apply inorder_delete_one_child in ED; auto. now rewrite ED. }
  destruct (maximum_node (T lc ll le lr) []) as [[[[[pc pl] pe] pr] cin]|] eqn:EM; [|discriminate H].
  apply maximum_node_spec in EM. destruct EM as (cin' & Hc & Hpr & Hpl & Hlo).
  rewrite app_nil_r in Hc; subst cin' pr.
  rewrite <- Hpl. clear Hpl. rewrite inorder_plug, Hlo.
  destruct kt; [| |congruence].
  - destruct (delete_one_child pc pl E _) as [t1|] eqn:ED; cbn [obind] in H; inversion H; subst.
    apply inorder_delete_one_child in ED; auto. rewrite ED, lo_app, hi_app, Hlo. cbn.
    repeat (rewrite ?map_app, <- ?app_assoc; cbn); reflexivity.
  - destruct (delete_one_child pc pl E _) as [t1|] eqn:ED; cbn [obind] in H; inversion H; subst.
    apply inorder_delete_one_child in ED; auto. rewrite ED, lo_app, hi_app, Hlo. cbn.
    repeat (rewrite ?map_app, <- ?app_assoc; cbn); reflexivity.
Qed.

(** * Red-black invariant *)
Inductive RB : color -> nat -> tree -> Prop :=
| RB_E : RB Black 0 E
| RB_R n l e r : RB Black n l -> RB Black n r -> RB Red n (T Red l e r)
| RB_B n c1 c2 l e r : RB c1 n l -> RB c2 n r -> RB Black (S n) (T Black l e r).

(** [RC b n c]: the hole of [c] may receive any tree of black height n that is black,
    and also a red one if b. *)
Inductive RC : bool -> nat -> ctx -> Prop :=
| RC_nil n : RC false n []
| RC_red n f c : fcol f = Red -> RB Black n (foth f) -> RC true n c -> RC false n (f :: c)
| RC_black n b f c co : fcol f = Black -> RB co n (foth f) -> RC b (S n) c -> RC true n (f :: c).

Lemma RB_color : forall c n t, RB c n t -> node_color t = c.
Proof. intros c n t H; inversion H; reflexivity. Qed.

Lemma RB_plug : forall (c : ctx) b co n t, RC b n c -> RB co n t -> (co = Red -> b = true) ->
  exists m, RB Black m (plug c t).
Proof.
  induction c as [|f c IH]; intros b co n t HC HT Hb; simpl.
  - inversion HC; subst. destruct co; [specialize (Hb eq_refl); discriminate|]. eauto.
  - inversion HC; subst.
    + destruct co; [specialize (Hb eq_refl); discriminate|].
      apply (IH true Red n); auto.
      destruct f as [[] fc fe fo]; unfold fill; simpl in *; subst; constructor; auto.
    + apply (IH b0 Black (S n)); auto; [|discriminate].
      destruct f as [[] fc fe fo]; unfold fill; simpl in *; subst; econstructor; eauto.
Qed.

Lemma RB_set_black : forall co n t, RB co n t -> exists t' m, set_color t Black = Some t' /\ RB Black m t'
   /\ (co = Red -> m = S n) /\ (co = Black -> m = n).
Proof.
  intros co n t H; inversion H; subst; simpl.
  - exists E, 0%nat; repeat split; auto; try constructor; discriminate.
  - exists (T Black l e r), (S n); repeat split; eauto; try discriminate. econstructor; eauto.
  - exists (T Black l e r), (S n0); repeat split; auto; discriminate.
Qed.

Lemma RB_black_E : forall n (t : tree), RB Black n t -> RB Black n t. Proof. auto. Qed.

Ltac inv H := inversion H; subst; clear H.

Lemma RC_cons : forall b n f (c : ctx), RC b n (f :: c) ->
  (b = false /\ fcol f = Red /\ RB Black n (foth f) /\ RC true n c) \/
  (b = true /\ fcol f = Black /\ exists co b', RB co n (foth f) /\ RC b' (S n) c).
Proof. intros b n f c H; inversion H; subst; [left|right]; eauto 10. Qed.

Lemma insert_case1_RB : forall k (c : ctx) b n l e r, (length c <= k)%nat ->
  RC b n c -> RB Black n l -> RB Black n r ->
  exists t m, insert_case1 (T Red l e r) c = Some t /\ RB Black m t.
Proof.
  induction k as [|k IH]; intros c b n l e r Hk HC Hl Hr.
  - destruct c; simpl in Hk; [|lia]. simpl. eexists _, _; split; eauto. econstructor; eauto.
  - destruct c as [|p c1].
    { simpl. eexists _, _; split; eauto. econstructor; eauto. }
    cbn [insert_case1].
    destruct (RC_cons _ _ _ _ HC) as [(-> & Hp & Hpo & HC1)|(-> & Hp & co & b' & Hpo & HC1)].
    + rewrite Hp; cbn [color_eqb]. destruct c1 as [|g c2]; [inversion HC1|].
      destruct (RC_cons _ _ _ _ HC1) as [(HF & _)|(_ & Hg & co & b' & Hgo & HC2)]; [discriminate|].
      destruct (color_eqb (node_color (foth g)) Red) eqn:EU.
      * assert (co = Red) by (rewrite (RB_color _ _ _ Hgo) in EU; destruct co; auto; discriminate).
        subst co. destruct (RB_set_black _ _ _ Hgo) as (u' & m & Hu & Hrb & Hm & _).
        rewrite Hu; cbn [obind]. rewrite Hm in Hrb by auto.
        assert (Hpp : RB Black (S n) (fill (mkFrame (fside p) Black (fent p) (foth p)) (T Red l e r))).
        { destruct p as [[] pc pe po]; unfold fill; simpl in *; econstructor; eauto; constructor; auto. }
        destruct g as [[] gc ge go]; unfold fill at 1; cbn [fside fcol fent foth] in *;
          eapply IH; eauto; simpl in Hk; lia.
      * assert (co = Black) by (rewrite (RB_color _ _ _ Hgo) in EU; destruct co; auto; discriminate).
        subst co.
        assert (exists t4, insert_case4 (T Red l e r) p g = Some t4 /\ RB Black (S n) t4) as (t4 & E4 & R4).
        { destruct p as [[] pc pe po], g as [[] gc ge go]; simpl in *; subst;
            unfold insert_case4, insert_case5, fill; simpl; eexists; (split; [reflexivity|]);
            econstructor; constructor; auto. }
        rewrite E4; cbn [obind].
        destruct (RB_plug c2 b' Black (S n) t4) as (m & Hm); auto; [discriminate|].
        eauto.
    + rewrite Hp; cbn [color_eqb].
      destruct (RB_plug (p :: c1) true Red n (T Red l e r)) as (m & Hm); auto.
      { constructor; auto. }
      eauto.
Qed.

(** Deletion: the hole expects black height S n, the result expects n, and either the
    chain is empty or a red tree may be put in the hole. *)
Definition head_ok (c : ctx) (b : bool) : Prop := c = [] \/ b = true.

Lemma case6_RB : forall p (c : ctx) b n se sl sr csl csr,
  RC b (if color_eqb (fcol p) Red then S n else S (S n)) c ->
  (fcol p = Red -> b = true) ->
  foth p = T Black sl se sr ->
  RB csl n sl -> RB csr n sr ->
  (fside p = LeftOf -> csr = Red) -> (fside p = RightOf -> csl = Red) ->
  exists c' , delete_case6 p c = Some c' /\ RC true n c'.
Proof.
  intros [s pc pe po] c b n se sl sr csl csr HC Hb Ho Hsl Hsr HL HR; simpl in *; subst po.
  unfold delete_case6; simpl. destruct s.
  - rewrite HL in Hsr by auto.
    destruct (RB_set_black _ _ _ Hsr) as (t' & m & H1 & H2 & H3 & _). rewrite H3 in H2 by auto.
    rewrite H1; cbn [obind]. eexists; split; [reflexivity|].
    destruct pc; simpl in *.
    + rewrite Hb in HC by auto. eapply RC_black; simpl; eauto. eapply RC_red; simpl; eauto.
    + eapply RC_black; simpl; eauto. eapply RC_black; simpl; eauto.
  - rewrite HR in Hsl by auto.
    destruct (RB_set_black _ _ _ Hsl) as (t' & m & H1 & H2 & H3 & _). rewrite H3 in H2 by auto.
    rewrite H1; cbn [obind]. eexists; split; [reflexivity|].
    destruct pc; simpl in *.
    + rewrite Hb in HC by auto. eapply RC_black; simpl; eauto. eapply RC_red; simpl; eauto.
    + eapply RC_black; simpl; eauto. eapply RC_black; simpl; eauto.
Qed.

Lemma case5_RB : forall p (c : ctx) b n se sl sr csl csr,
  RC b (if color_eqb (fcol p) Red then S n else S (S n)) c ->
  (fcol p = Red -> b = true) ->
  foth p = T Black sl se sr ->
  RB csl n sl -> RB csr n sr ->
  (csl = Red \/ csr = Red) ->
  exists c' , delete_case5 p c = Some c' /\ RC true n c'.
Proof.
  intros [s pc pe po] c b n se sl sr csl csr HC Hb Ho Hsl Hsr Hred; simpl in Ho; subst po.
  unfold delete_case5. cbn [foth fside fcol fent color_eqb].
  rewrite (RB_color _ _ _ Hsl), (RB_color _ _ _ Hsr).
  destruct s.
  - destruct csr; simpl.
    + eapply case6_RB; simpl; eauto. discriminate.
    + destruct Hred as [->|]; [|discriminate]. simpl.
      inv Hsl. cbn [set_color obind rotate_right].
      eapply case6_RB; simpl; eauto; [constructor; eauto|discriminate].
  - destruct csl; simpl.
    + destruct csr; simpl; eapply case6_RB; simpl; eauto; discriminate.
    + destruct Hred as [Hq|Hq]; [discriminate|]. subst csr. simpl.
      inv Hsr. cbn [set_color obind rotate_left].
      eapply case6_RB; simpl; eauto; [constructor; eauto|discriminate].
Qed.

Lemma case4_RB : forall p (c : ctx) b n se sl sr csl csr,
  RC b (if color_eqb (fcol p) Red then S n else S (S n)) c ->
  (fcol p = Red -> b = true) ->
  foth p = T Black sl se sr ->
  RB csl n sl -> RB csr n sr ->
  (fcol p = Black -> csl = Red \/ csr = Red) ->
  exists c' , delete_case4 p c = Some c' /\ RC true n c'.
Proof.
  intros p c b n se sl sr csl csr HC Hb Ho Hsl Hsr Hred.
  unfold delete_case4. destruct (fcol p) eqn:EP; simpl.
  - rewrite Ho. simpl. rewrite (RB_color _ _ _ Hsl), (RB_color _ _ _ Hsr).
    destruct csl, csr; simpl.
    1,2,3: eapply (case5_RB p c b n se sl sr); eauto; rewrite EP; first [exact HC|exact Hb].
    eexists; split; [reflexivity|].
    simpl in HC. rewrite Hb in HC by auto. eapply RC_black; simpl; eauto. constructor; auto.
  - eapply (case5_RB p c b n se sl sr); eauto; rewrite EP; first [exact HC|exact Hb].
Qed.

Lemma case1_RB : forall fuel (c : ctx) b n, (S (length c) <= fuel)%nat ->
  RC b (S n) c ->
  exists c', delete_case1 fuel c = Some c' /\ (exists b', RC b' n c' /\ head_ok c' b').
Proof.
  induction fuel as [|f IH]; intros c b n Hf HC; [lia|].
  destruct c as [|p c1].
  { simpl. exists []. split; auto. exists false. split; [constructor|left; auto]. }
  cbn [delete_case1].
    set (case3 := fun (p : frame K V) (c1 : ctx) =>
            if color_eqb (fcol p) Black then
              obind (sib_all_black (foth p)) (fun b =>
              if b then
                obind (set_color (foth p) Red) (fun s' =>
                obind (delete_case1 f c1) (fun c1' =>
                Some (mkFrame (fside p) (fcol p) (fent p) s' :: c1')))
              else delete_case4 p c1)
            else delete_case4 p c1).
  assert (H3R : forall p c1, fcol p = Red -> case3 p c1 = delete_case4 p c1).
  { intros q c2 Hq. unfold case3. rewrite Hq. reflexivity. }
  assert (H3B : forall p c1 b se sl sr csl csr, fcol p = Black ->
     (S (length c1) <= f)%nat -> RC b (S (S n)) c1 -> foth p = T Black sl se sr ->
     RB csl n sl -> RB csr n sr ->
     exists c', case3 p c1 = Some c' /\ (exists b', RC b' n c' /\ head_ok c' b')).
  { clear b p c1 Hf HC. intros p c1 b se sl sr csl csr HB Hf HC Ho Hsl Hsr. unfold case3.
    rewrite HB. cbn [color_eqb]. rewrite Ho. cbn [sib_all_black color_eqb andb obind].
    rewrite (RB_color _ _ _ Hsl), (RB_color _ _ _ Hsr).
    destruct (color_eqb csl Black && color_eqb csr Black)%bool eqn:EB.
    - cbn [set_color obind].
      destruct (IH c1 b (S n) Hf HC) as (c1' & E1 & b' & R1 & _).
      rewrite E1; cbn [obind]. eexists; split; [reflexivity|].
      exists true. split; [|right; auto].
      assert (csl = Black /\ csr = Black) as [-> ->] by (destruct csl, csr; auto; discriminate).
      eapply RC_black; simpl; eauto. constructor; eauto.
    - destruct (case4_RB p c1 b n se sl sr csl csr) as (c' & E4 & R4); auto.
      + rewrite HB; exact HC.
      + congruence.
      + intros _. destruct csl, csr; auto; discriminate.
      + exists c'; split; auto. exists true; split; auto. right; auto. }
  change (exists c' : ctx,
  (match foth p with
   | T Red sl se sr =>
       match fside p with
       | LeftOf => case3 (mkFrame LeftOf Red (fent p) sl) (mkFrame LeftOf Black se sr :: c1)
       | RightOf => case3 (mkFrame RightOf Red (fent p) sr) (mkFrame RightOf Black se sl :: c1)
       end
   | _ => case3 p c1
   end) = Some c' /\ (exists b' : bool, RC b' n c' /\ head_ok c' b')).
  clearbody case3. simpl in Hf.
  assert (HT : forall c', RC true n c' -> exists b', RC b' n c' /\ head_ok c' b').
  { intros c' Hc. exists true; split; auto. right; auto. }
  destruct (RC_cons _ _ _ _ HC) as [(-> & Hp & Hpo & HC1)|(-> & Hp & co & b' & Hpo & HC1)].
  - (* parent red, sibling black *)
    inversion Hpo as [| |n' c1' c2' sl se sr Hsl Hsr]; subst.
    rewrite H3R by auto.
    destruct (case4_RB p c1 true n se sl sr c1' c2') as (c' & E4 & R4); auto.
    { rewrite Hp; exact HC1. } { intros; congruence. }
    exists c'; auto.
  - (* parent black *)
    inversion Hpo as [|n' sl se sr Hsl Hsr|n' c1' c2' sl se sr Hsl Hsr]; subst.
    + (* sibling red *)
      destruct (fside p) eqn:ES.
      * inversion Hsl as [| |n' c1' c2' sl0 se0 sr0 Hsl0 Hsr0]; subst. rewrite H3R by auto.
        destruct (case4_RB (mkFrame LeftOf Red (fent p) (T Black sl0 se0 sr0)) (mkFrame LeftOf Black se sr :: c1)
                    true n se0 sl0 sr0 c1' c2') as (c' & E4 & R4); auto; try discriminate.
        { cbn. eapply RC_black; simpl; eauto. }
        exists c'; auto.
      * inversion Hsr as [| |n' c1' c2' sl0 se0 sr0 Hsl0 Hsr0]; subst. rewrite H3R by auto.
        destruct (case4_RB (mkFrame RightOf Red (fent p) (T Black sl0 se0 sr0)) (mkFrame RightOf Black se sl :: c1)
                    true n se0 sl0 sr0 c1' c2') as (c' & E4 & R4); auto; try discriminate.
        { cbn. eapply RC_black; simpl; eauto. }
        exists c'; auto.
    + (* sibling black *)
      eapply H3B; eauto. lia.
Qed.

Lemma delete_one_child_RB : forall co n (nl nr : tree) ne c b, 
  (nl = E \/ nr = E) ->
  RB co n (T co nl ne nr) -> RC b n c -> (co = Red -> b = true) ->
  exists t m, delete_one_child co nl nr c = Some t /\ RB Black m t.
Proof.
  intros co n nl nr ne c b Hor HT HC Hb. unfold delete_one_child.
  set (child := match nr with E => nl | _ => nr end).
  assert (Hch : exists cc, RB cc (match co with Red => n | Black => pred n end) child
                /\ (co = Red -> cc = Black)).
  { inversion HT as [|n' l0 e0 r0 Hl Hr|n' c1 c2 l0 e0 r0 Hl Hr]; subst; cbn [pred];
      unfold child; destruct Hor; subst; [destruct nr| |destruct nr|]; eexists; split; eauto; discriminate. }
  destruct Hch as (cc & Hch & Hcc). clearbody child.
  destruct co.
  - rewrite Hcc in * by auto.
    cbn [obind]. destruct c as [|f c'].
    + destruct child as [|xc xl xe xr]; [eexists _, _; split; eauto; constructor|].
      destruct (RB_set_black _ _ _ Hch) as (t' & m & H1 & H2 & _). eauto.
    + destruct (RB_plug (f :: c') b Black n child) as (m & Hm); auto; try discriminate; eauto.
  - inv HT. simpl in Hch.
    assert (HF : (S (length c) <= delete_fuel c)%nat) by (unfold delete_fuel; lia).
    destruct (case1_RB (delete_fuel c) c b n0 HF HC) as (c' & E1 & b' & R1 & Hh).
    rewrite E1; cbn [obind].
    destruct Hh as [-> | ->].
    + destruct child as [|xc xl xe xr]; [eexists _, _; split; eauto; constructor|].
      destruct (RB_set_black _ _ _ Hch) as (t' & m & H1' & H2' & _). eauto.
    + destruct c' as [|f c']; [inv R1|].
      destruct (RB_plug (f :: c') true cc n0 child) as (m & Hm); auto. eauto.
Qed.
End Proofs.
