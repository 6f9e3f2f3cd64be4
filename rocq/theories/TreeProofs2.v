From Coq Require Import ZArith List Bool Lia Sorting.Sorted Permutation.
Import ListNotations.
From Verif Require Import TreeModel TreeSpec TreeProofs.
Local Open Scope Z_scope.

Section Sorted_lemmas.
Context {A : Type} (R : A -> A -> Prop).
Lemma SS_app : forall l1 l2, StronglySorted R (l1 ++ l2) <->
  StronglySorted R l1 /\ StronglySorted R l2 /\ (forall a b, In a l1 -> In b l2 -> R a b).
Proof.
  induction l1 as [|x l1 IH]; intros l2; simpl.
  - split; [intros H; repeat split; auto; [constructor|intros a b []]|tauto].
  - split.
    + intros H; inversion H as [|? ? H1 H2]; subst. apply IH in H1. destruct H1 as (H1 & H3 & H4).
      rewrite Forall_app in H2. destruct H2 as [H2 H5]. rewrite Forall_forall in H5.
      repeat split; auto. { constructor; auto. }
      intros a b [->|Ha] Hb; auto.
    + intros (H1 & H2 & H3). inversion H1; subst. constructor.
      * apply IH; repeat split; auto.
      * apply Forall_app; split; auto. rewrite Forall_forall; auto.
Qed.
End Sorted_lemmas.

Section Proofs2.
Context {K V : Type}.
Variable P : K -> Prop.
Variable cmp : K -> K -> Z.
Hypothesis TO : total_order P cmp.
Variable dec : forall a b : K, {a = b} + {a <> b}.

Notation tree := (tree K V).
Notation ctx := (ctx K V).
Notation entry := (entry K V).

Definition keys (es : list entry) : list K := map ekey es.

Lemma lt_irrefl : forall a, P a -> ~ cmp a a < 0.
Proof. intros a Ha H. assert (cmp a a = 0) by (apply (cmp_eq _ _ TO); auto). lia. Qed.

Definition sorted (es : list entry) : Prop :=
  ascending cmp (keys es) /\ Forall P (keys es).

Lemma sorted_app : forall a b, sorted (a ++ b) <->
  sorted a /\ sorted b /\ (forall x y, In x a -> In y b -> cmp (ekey x) (ekey y) < 0).
Proof.
  intros a b. unfold sorted, ascending, keys. rewrite map_app, SS_app, Forall_app.
  split.
  - intros ((H1 & H2 & H3) & H4 & H5). repeat split; auto.
    intros x y Hx Hy. apply H3; now apply in_map.
  - intros ((H1 & H2) & (H3 & H4) & H5). repeat split; auto.
    intros x y Hx Hy. apply in_map_iff in Hx, Hy. destruct Hx as (x' & <- & Hx), Hy as (y' & <- & Hy). auto.
Qed.

Lemma sorted_one : forall e, P (ekey e) -> sorted [e].
Proof. intros e H; split; repeat constructor; auto. Qed.

Lemma sorted_in_P : forall l x, sorted l -> In x l -> P (ekey x).
Proof. intros l x [_ H] Hx. rewrite Forall_forall in H. apply H. now apply in_map. Qed.

Lemma in_inorder_T : forall c l e r (x : entry),
  In x (tree_inorder (T c l e r)) <-> In x (tree_inorder r) \/ x = e \/ In x (tree_inorder l).
Proof. intros; simpl; rewrite in_app_iff; simpl; intuition. Qed.

Lemma sorted_T : forall c l e r, sorted (tree_inorder (T c l e r)) ->
  sorted (tree_inorder l) /\ sorted (tree_inorder r) /\ P (ekey e) /\
  (forall x, In x (tree_inorder r) -> cmp (ekey x) (ekey e) < 0) /\
  (forall x, In x (tree_inorder l) -> cmp (ekey e) (ekey x) < 0) .
Proof.
  intros c l e r H. simpl in H. apply sorted_app in H. destruct H as (H1 & H2 & H3).
  change (e :: tree_inorder l) with ([e] ++ tree_inorder l) in H2.
  apply sorted_app in H2. destruct H2 as (H4 & H5 & H6).
  split; [exact H5|split; [exact H1|split; [|split]]].
  - eapply sorted_in_P; [exact H4|simpl; auto].
  - intros x Hx. apply H3; simpl; auto.
  - intros x Hx. apply H6; simpl; auto.
Qed.

(** find *)
Lemma find_path_some : forall k (t : tree) c tc l e r c',
  find_path cmp k t c = Some (tc, l, e, r, c') ->
  plug c' (T tc l e r) = plug c t /\ cmp (ekey e) k = 0.
Proof.
  induction t as [|xc xl IHl xe xr IHr]; intros c tc l e r c' H; simpl in H; [discriminate|].
  destruct (cmp (ekey xe) k =? 0) eqn:E0.
  - inversion H; subst. split; auto. now apply Z.eqb_eq.
  - destruct (cmp (ekey xe) k <? 0).
    + apply IHl in H. exact H.
    + apply IHr in H. exact H.
Qed.

Lemma find_path_none : forall k (t : tree) c, P k -> sorted (tree_inorder t) ->
  find_path cmp k t c = None -> forall e, In e (tree_inorder t) -> ekey e <> k.
Proof.
  induction t as [|xc xl IHl xe xr IHr]; intros c HP HS H x Hx; [destruct Hx|].
  cbn [find_path] in H.
  destruct (sorted_T _ _ _ _ HS) as (Sl & Sr & Pe & Hr & Hl).
  destruct (cmp (ekey xe) k =? 0) eqn:E0; [discriminate|]. apply Z.eqb_neq in E0.
  apply in_inorder_T in Hx.
  destruct (cmp (ekey xe) k <? 0) eqn:E1.
  - apply Z.ltb_lt in E1. destruct Hx as [Hx|[->|Hx]]; [| |eapply IHl; eauto].
    + intros <-. apply Hr in Hx as G. apply (cmp_flip _ _ TO) in G; auto; lia.
    + intros Hk. apply E0. apply (cmp_eq _ _ TO); auto.
  - apply Z.ltb_ge in E1. destruct Hx as [Hx|[->|Hx]]; [eapply IHr; eauto| |].
    + intros Hk. apply E0. apply (cmp_eq _ _ TO); auto.
    + intros <-. apply Hl in Hx as G. lia.
Qed.

Lemma insert_path_ok : forall k (t : tree) c, P k -> sorted (tree_inorder t) ->
  (forall e, In e (tree_inorder t) -> ekey e <> k) ->
  (forall e, In e (lo c) -> cmp (ekey e) k < 0) ->
  (forall e, In e (hi c) -> cmp k (ekey e) < 0) ->
  exists c', insert_path cmp k t c = Some c' /\ plug c' E = plug c t /\
    (forall e, In e (lo c') -> cmp (ekey e) k < 0) /\
    (forall e, In e (hi c') -> cmp k (ekey e) < 0).
Proof.
  induction t as [|xc xl IHl xe xr IHr]; intros c HP HS HN HL HH.
  - simpl. exists c; auto.
  - cbn [insert_path].
    destruct (sorted_T _ _ _ _ HS) as (Sl & Sr & Pe & Hr & Hl).
    assert (Hne : ekey xe <> k) by (apply HN; apply in_inorder_T; auto).
    destruct (cmp (ekey xe) k =? 0) eqn:E0.
    { apply Z.eqb_eq in E0. apply (cmp_eq _ _ TO) in E0; auto. congruence. }
    apply Z.eqb_neq in E0.
    destruct (cmp (ekey xe) k <? 0) eqn:E1.
    + apply Z.ltb_lt in E1.
      destruct (IHl (mkFrame LeftOf xc xe xr :: c)) as (c' & H1 & H2 & H3 & H4); auto.
      * intros e He. apply HN. apply in_inorder_T; auto.
      * simpl. intros e He. rewrite !in_app_iff in He. destruct He as [He|[He|[<-|[]]]]; auto.
        apply (cmp_trans _ _ TO) with (ekey xe); auto. eapply sorted_in_P; [|eauto]; auto.
      * exists c'; auto.
    + apply Z.ltb_ge in E1.
      assert (E2 : cmp k (ekey xe) < 0).
      { apply (cmp_flip _ _ TO); auto. lia. }
      destruct (IHr (mkFrame RightOf xc xe xl :: c)) as (c' & H1 & H2 & H3 & H4); auto.
      * intros e He. apply HN. apply in_inorder_T; auto.
      * simpl. intros e [<-|He]; auto. rewrite in_app_iff in He. destruct He as [He|He]; auto.
        apply (cmp_trans _ _ TO) with (ekey xe); auto. eapply sorted_in_P; [|eauto]; auto.
      * exists c'; auto.
Qed.

(** Unplugging the red-black invariant. *)
Lemma RB_unplug : forall (c : ctx) t m, RB Black m (plug c t) ->
  exists b co n, RC b n c /\ RB co n t /\ (co = Red -> b = true).
Proof.
  induction c as [|f c IH]; intros t m H; simpl in H.
  - exists false, Black, m. repeat split; auto; try constructor. discriminate.
  - apply IH in H. destruct H as (b & co & n & HC & HT & Hb).
    destruct f as [s fc fe fo]. unfold fill in HT; simpl in HT.
    destruct s.
    + inversion HT; subst.
      * rewrite Hb in HC by auto. exists false, Black, n. repeat split; auto; [|discriminate].
        apply RC_red; auto.
      * exists true, c1, n0. repeat split; auto. eapply RC_black; simpl; eauto.
    + inversion HT; subst.
      * rewrite Hb in HC by auto. exists false, Black, n. repeat split; auto; [|discriminate].
        apply RC_red; auto.
      * exists true, c2, n0. repeat split; auto. eapply RC_black; simpl; eauto.
Qed.

Lemma RB_entry : forall co n c (l : tree) e e' r, RB co n (T c l e r) -> RB co n (T c l e' r).
Proof. intros co n c l e e' r H; inversion H; subst; econstructor; eauto. Qed.

Lemma RB_own_color : forall co n c (l : tree) e r, RB co n (T c l e r) -> c = co.
Proof. intros co n c l e r H; inversion H; auto. Qed.

Lemma RB_plug_entry : forall (c : ctx) tc l e e' r m, RB Black m (plug c (T tc l e r)) ->
  exists m', RB Black m' (plug c (T tc l e' r)).
Proof.
  intros c tc l e e' r m H. apply RB_unplug in H. destruct H as (b & co & n & HC & HT & Hb).
  eapply RB_plug; eauto. eapply RB_entry; eauto.
Qed.

Lemma entry_delete_RB : forall kt nc (nl : tree) ne nr c m, kt <> KStruct ->
  RB Black m (plug c (T nc nl ne nr)) ->
  exists t fr m', entry_delete kt nc nl ne nr c = Some (t, fr) /\ RB Black m' t.
Proof.
  intros kt nc nl ne nr c m Hkt H. unfold entry_delete.
  assert (Hone : nl = E \/ nr = E -> exists t m', delete_one_child nc nl nr c = Some t /\ RB Black m' t).
  { intros Hor. apply RB_unplug in H. destruct H as (b & co & n & HC & HT & Hb).
    pose proof (RB_own_color _ _ _ _ _ _ HT) as ->.
    eapply delete_one_child_RB; eauto. }
  destruct nl as [|lc ll le lr].
  { destruct Hone as (t & m' & Ht & HR); auto. rewrite Ht; simpl. eauto. }
  destruct nr as [|rc rl re rr].
  { destruct Hone as (t & m' & Ht & HR); auto. rewrite Ht; simpl. eauto. }
  clear Hone.
  destruct (maximum_node (T lc ll le lr) []) as [[[[[pc pl] pe] pr] cin]|] eqn:EM.
  2:{ exfalso. clear -EM. assert (G : forall (t : tree) c, t <> E -> maximum_node t c <> None).
      { induction t as [|xc xl IHl xe xr IHr]; intros c0 Hn; [congruence|]. simpl.
        destruct xr; [discriminate|apply IHr; discriminate]. }
      revert EM; apply G; discriminate. }
  apply maximum_node_spec in EM. destruct EM as (cin' & Hc & Hpr & Hpl & Hlo).
  rewrite app_nil_r in Hc; subst cin' pr.
  assert (G : forall X, exists t m',
    delete_one_child pc pl E (cin ++ mkFrame LeftOf nc X (T rc rl re rr) :: c) = Some t /\ RB Black m' t).
  { intros X. apply RB_plug_entry with (e' := X) in H. destruct H as (m' & H).
    assert (HP : plug c (T nc (T lc ll le lr) X (T rc rl re rr)) =
            plug (cin ++ mkFrame LeftOf nc X (T rc rl re rr) :: c) (T pc pl pe E)).
    { rewrite plug_app, Hpl. reflexivity. }
    rewrite HP in H. apply RB_unplug in H. destruct H as (b & co & n & HC & HT & Hb).
    pose proof (RB_own_color _ _ _ _ _ _ HT) as ->.
    eapply delete_one_child_RB; eauto. }
  destruct kt; [| |congruence].
  - destruct (G pe) as (t & m' & Ht & HR). cbv zeta. rewrite Ht; cbn [obind]. eauto.
  - destruct (G (mkEntry (eptr ne) (ekey pe) (eval pe))) as (t & m' & Ht & HR).
    cbv zeta. rewrite Ht; cbn [obind]. eauto.
Qed.

(** * The whole invariant *)
Definition content (t : rbtree K V) : list (K * V) := map kv (tree_inorder (root t)).

Definition wf (t : rbtree K V) : Prop :=
  sorted (tree_inorder (root t)) /\
  (exists m, RB Black m (root t)) /\
  numEntries t = Z.of_nat (length (tree_inorder (root t))).

Lemma wf_new : wf tree_new.
Proof. split; [split; constructor|split]; auto. exists 0%nat. constructor. Qed.

Lemma keys_content : forall es : list entry, keys es = map fst (map kv es).
Proof. intros; unfold keys, kv; rewrite map_map; reflexivity. Qed.

Lemma sorted_keys_eq : forall a b, keys a = keys b -> sorted a -> sorted b.
Proof. unfold sorted; intros a b E; now rewrite E. Qed.

Lemma tree_find_in : forall k t e, sorted (tree_inorder t) -> P k ->
  tree_find cmp k t = Some e -> In e (tree_inorder t) /\ ekey e = k.
Proof.
  intros k t e HS HP H. unfold tree_find in H.
  destruct (find_path cmp k t []) as [[[[[tc l] e'] r] c]|] eqn:EF; inversion H; subst.
  apply find_path_some in EF. destruct EF as [E1 E2]. simpl in E1.
  assert (In e (tree_inorder t)).
  { rewrite <- E1, inorder_plug. simpl. rewrite !in_app_iff. simpl. auto. }
  split; auto. apply (cmp_eq _ _ TO); auto. eapply sorted_in_P; eauto.
Qed.

Lemma sorted_key_inj : forall l a b, sorted l -> In a l -> In b l -> ekey a = ekey b -> a = b.
Proof.
  induction l as [|x l IH]; intros a b HS Ha Hb E; [destruct Ha|].
  change (x :: l) with ([x] ++ l) in HS. apply sorted_app in HS. destruct HS as (H1 & H2 & H3).
  destruct Ha as [->|Ha], Hb as [->|Hb]; auto.
  - exfalso. specialize (H3 a b (or_introl eq_refl) Hb). rewrite E in H3.
    eapply lt_irrefl; [|exact H3]. eapply sorted_in_P; eauto.
  - exfalso. specialize (H3 b a (or_introl eq_refl) Ha). rewrite E in H3.
    eapply lt_irrefl; [|exact H3]. eapply sorted_in_P; [exact H1|left; auto].
Qed.

Lemma tree_get_spec : forall k v t, wf t -> P k ->
  tree_get cmp k t = Some v <-> In (k, v) (content t).
Proof.
  intros k v t (HS & _ & _) HP. unfold tree_get, content.
  destruct (tree_find cmp k (root t)) as [e|] eqn:EF.
  - apply tree_find_in in EF; auto. destruct EF as [Hin Hk]. split.
    + intros H; inversion H; subst. change (ekey e, eval e) with (kv e). now apply in_map.
    + intros H. apply in_map_iff in H. destruct H as (e' & Hkv & Hin'). unfold kv in Hkv.
      inversion Hkv. f_equal.
      assert (e = e') by (eapply sorted_key_inj; eauto; congruence). now subst.
  - split; [discriminate|]. intros H. exfalso.
    apply in_map_iff in H. destruct H as (e' & Hkv & Hin').
    unfold tree_find in EF.
    destruct (find_path cmp k (root t) []) as [[[[[tc l] e2] r] c]|] eqn:EF2; [discriminate|].
    eapply find_path_none in EF2; eauto. inversion Hkv; congruence.
Qed.

Lemma length_map_eq : forall (a b : list entry), map kv a = map kv b -> length a = length b.
Proof. intros a b H. rewrite <- (map_length kv a), H. apply map_length. Qed.

Lemma tree_set_ok : forall k v t, wf t -> P k ->
  exists t', tree_set cmp k v t = Some t' /\ wf t' /\
    (forall k' v', In (k', v') (content t') <-> (k' = k /\ v' = v) \/ (k' <> k /\ In (k', v') (content t))).
Proof.
  intros k v t (HS & (m & HR) & HN) HP. unfold tree_set, tree_find.
  destruct (find_path cmp k (root t) []) as [[[[[tc l] e] r] c]|] eqn:EF.
  - (* overwrite *)
    unfold set_value. rewrite EF.
    apply find_path_some in EF. destruct EF as [E1 E2]. simpl in E1.
    eexists; split; [reflexivity|].
    assert (EL : tree_inorder (root t) = lo c ++ (tree_inorder r ++ e :: tree_inorder l) ++ hi c).
    { rewrite <- E1, inorder_plug. reflexivity. }
    set (e' := mkEntry (eptr e) (ekey e) v).
    assert (EL' : tree_inorder (plug c (T tc l e' r)) = lo c ++ (tree_inorder r ++ e' :: tree_inorder l) ++ hi c).
    { rewrite inorder_plug. reflexivity. }
    assert (HKey : ekey e = k).
    { apply (cmp_eq _ _ TO); auto. eapply sorted_in_P; [exact HS|]. rewrite EL, !in_app_iff. simpl; auto. }
    assert (EK : keys (tree_inorder (root t)) = keys (tree_inorder (plug c (T tc l e' r)))).
    { rewrite EL, EL'. unfold keys. rewrite !map_app. reflexivity. }
    split; [split; [|split]|]; cbn [root numEntries].
    + eapply sorted_keys_eq; eauto.
    + rewrite <- E1 in HR. eapply RB_plug_entry; eauto.
    + rewrite HN. f_equal. unfold keys in EK. rewrite <- (map_length (@ekey K V)), EK. apply map_length.
    + intros k' v'. unfold content; cbn [root]. rewrite EL'.
      rewrite !map_app, !in_app_iff. cbn [map In kv].
      assert (HX : forall v0, In (k', v0) (map kv (tree_inorder r)) \/ In (k', v0) (map kv (tree_inorder l))
          \/ In (k', v0) (map kv (lo c)) \/ In (k', v0) (map kv (hi c)) -> k' <> k).
      { intros v0 HI Heq. subst k'.
        assert (HS2 := HS). rewrite EL in HS2.
        assert (exists x, ekey x = k /\ (In x (tree_inorder r) \/ In x (tree_inorder l) \/ In x (lo c) \/ In x (hi c))) as (x & Hx & HI').
        { destruct HI as [HI|[HI|[HI|HI]]]; apply in_map_iff in HI; destruct HI as (x & Hx & HI); inversion Hx; exists x; auto. }
        (* the key k occurs at e and at x *)
        apply sorted_app in HS2. destruct HS2 as (A1 & A2 & A3).
        apply sorted_app in A2. destruct A2 as (A2 & A4 & A5).
        apply sorted_app in A2. destruct A2 as (A2 & A6 & A7).
        change (e :: tree_inorder l) with ([e] ++ tree_inorder l) in A6.
        apply sorted_app in A6. destruct A6 as (A6 & A8 & A9).
        destruct HI' as [HI'|[HI'|[HI'|HI']]].
        - specialize (A7 x e HI' (or_introl eq_refl)). rewrite Hx, HKey in A7. eapply lt_irrefl; eauto.
        - specialize (A9 e x (or_introl eq_refl) HI'). rewrite Hx, HKey in A9. eapply lt_irrefl; eauto.
        - specialize (A3 x e HI'). rewrite Hx, HKey in A3. eapply lt_irrefl; [eauto|]. apply A3.
          rewrite !in_app_iff; simpl; auto.
        - specialize (A5 e x). rewrite Hx, HKey in A5. eapply lt_irrefl; [eauto|]. apply A5; auto.
          rewrite !in_app_iff; simpl; auto. }
      replace (map kv (tree_inorder (root t))) with (map kv (lo c ++ (tree_inorder r ++ e :: tree_inorder l) ++ hi c)) by (now rewrite EL).
      rewrite !map_app, !in_app_iff. cbn [map In kv ekey eval].
      unfold e' in *; cbn [ekey eval kv] in *. unfold kv at 3. cbn [ekey eval]. unfold kv at 8.
      split.
      * intros [H|[[H|[H|H]]|H]].
        -- right. split; [eapply HX; eauto|auto].
        -- right. split; [eapply HX; eauto|auto].
        -- left. inversion H; subst; auto.
        -- right. split; [eapply HX; eauto|auto].
        -- right. split; [eapply HX; eauto|auto].
      * intros [[-> ->]|[Hne [H|[[H|[H|H]]|H]]]]; auto.
        -- right; left; right; left. now rewrite HKey.
        -- inversion H; congruence.
  - (* new key *)
    pose proof (find_path_none k (root t) [] HP HS EF) as Hnone.
    destruct (insert_path_ok k (root t) [] HP HS Hnone) as (c & E1 & E2 & HL & HH);
      try (intros e []).
    rewrite E1; cbn [obind]. simpl in E2.
    rewrite <- E2 in HR. apply RB_unplug in HR. destruct HR as (b & co & n & HC & HT & Hb).
    inversion HT; subst.
    destruct (insert_case1_RB (length c) c b 0 E (mkEntry (nextptr t) k v) E) as (t' & m' & H1 & H2); auto; try constructor.
    rewrite H1; cbn [obind]. eexists; split; [reflexivity|].
    apply inorder_insert_case1 in H1. simpl in H1.
    assert (EL : tree_inorder (root t) = lo c ++ hi c).
    { rewrite <- E2, inorder_plug. reflexivity. }
    split; [split; [|split]|]; cbn [root numEntries].
    + rewrite H1. rewrite EL in HS. apply sorted_app in HS. destruct HS as (A1 & A2 & A3).
      apply sorted_app; split; [auto|split].
      * change (mkEntry (nextptr t) k v :: hi c) with ([mkEntry (nextptr t) k v] ++ hi c).
        apply sorted_app; repeat split; try apply A2; try (repeat constructor; auto).
        intros x y [<-|[]] Hy. simpl. auto.
      * intros x y Hx [<-|Hy]; simpl; auto.
    + eauto.
    + rewrite HN, H1, EL, !app_length. simpl. lia.
    + intros k' v'. unfold content; cbn [root]. rewrite H1, EL, !map_app, !in_app_iff.
      cbn [map In kv]. unfold kv at 2. cbn [ekey eval].
      assert (HX : forall x, In x (lo c) \/ In x (hi c) -> ekey x <> k).
      { intros x Hx. apply Hnone. rewrite EL, in_app_iff. auto. }
      split.
      * intros [H|[H|H]].
        -- right; split; auto. apply in_map_iff in H. destruct H as (x & Hx & H). inversion Hx; subst. apply HX; auto.
        -- left. inversion H; auto.
        -- right; split; auto. apply in_map_iff in H. destruct H as (x & Hx & H). inversion Hx; subst. apply HX; auto.
      * intros [[-> ->]|[Hne [H|H]]]; auto.
Qed.

Lemma tree_unset_ok : forall kt k t, kt <> KStruct -> wf t -> P k ->
  exists t' b, tree_unset cmp kt k t = Some (t', b) /\ wf t' /\
    (b = true <-> exists v, In (k, v) (content t)) /\
    (forall k' v', In (k', v') (content t') <-> (k' <> k /\ In (k', v') (content t))).
Proof.
  intros kt k t Hkt HW HP. pose proof HW as (HS & (m & HR) & HN). unfold tree_unset.
  destruct (find_path cmp k (root t) []) as [[[[[nc nl] ne] nr] c]|] eqn:EF.
  - apply find_path_some in EF. destruct EF as [E1 E2]. simpl in E1.
    assert (EL : tree_inorder (root t) = lo c ++ (tree_inorder nr ++ ne :: tree_inorder nl) ++ hi c).
    { rewrite <- E1, inorder_plug. reflexivity. }
    assert (HKey : ekey ne = k).
    { apply (cmp_eq _ _ TO); auto. eapply sorted_in_P; [exact HS|]. rewrite EL, !in_app_iff. simpl; auto. }
    rewrite <- E1 in HR.
    destruct (entry_delete_RB kt nc nl ne nr c m Hkt HR) as (t' & fr & m' & Hd & HR').
    rewrite Hd; cbn [obind]. eexists _, _; split; [reflexivity|].
    apply inorder_entry_delete in Hd; auto.
    assert (HSd : sorted (lo c ++ tree_inorder nr ++ tree_inorder nl ++ hi c) /\
       (forall x, In x (lo c ++ tree_inorder nr ++ tree_inorder nl ++ hi c) -> ekey x <> k)).
    { assert (HS2 := HS). rewrite EL in HS2.
        apply sorted_app in HS2. destruct HS2 as (A1 & A2 & A3).
        apply sorted_app in A2. destruct A2 as (A2 & A4 & A5).
        apply sorted_app in A2. destruct A2 as (A2 & A6 & A7).
        change (ne :: tree_inorder nl) with ([ne] ++ tree_inorder nl) in A6.
        apply sorted_app in A6. destruct A6 as (A6 & A8 & A9).
      split.
      - apply sorted_app; split; [auto|split].
        + apply sorted_app; split; [auto|split].
          * apply sorted_app; split; [auto|split; auto].
            intros x y Hx Hy. apply A5; auto. rewrite !in_app_iff; simpl; auto.
          * intros x y Hx Hy. apply in_app_iff in Hy. destruct Hy as [Hy|Hy]; [apply A7; simpl; auto|].
            apply A5; auto. rewrite !in_app_iff; simpl; auto.
        + intros x y Hx Hy. apply A3; auto. rewrite !in_app_iff in Hy |- *. simpl. tauto.
      - intros x Hx Hk. rewrite !in_app_iff in Hx. destruct Hx as [HI'|[HI'|[HI'|HI']]].
        + specialize (A3 x ne HI'). rewrite Hk, HKey in A3. eapply lt_irrefl; [eauto|]. apply A3.
          rewrite !in_app_iff; simpl; auto.
        + specialize (A7 x ne HI' (or_introl eq_refl)). rewrite Hk, HKey in A7. eapply lt_irrefl; eauto.
        + specialize (A9 ne x (or_introl eq_refl) HI'). rewrite Hk, HKey in A9. eapply lt_irrefl; eauto.
        + specialize (A5 ne x). rewrite Hk, HKey in A5. eapply lt_irrefl; [eauto|]. apply A5; auto.
          rewrite !in_app_iff; simpl; auto. }
    destruct HSd as [HSd HNk].
    split; [split; [|split]|split]; cbn [root numEntries].
    + eapply sorted_keys_eq; [|exact HSd]. rewrite !keys_content, Hd. reflexivity.
    + eauto.
    + apply length_map_eq in Hd. rewrite Hd, HN, EL, !app_length. simpl. rewrite ?app_length. simpl. lia.
    + split; auto. intros _. exists (eval ne). unfold content. rewrite EL.
      rewrite !map_app, !in_app_iff. simpl. unfold kv at 3. rewrite HKey. tauto.
    + intros k' v'. unfold content; cbn [root]. rewrite Hd, EL.
      split.
      * intros H. split.
        -- apply in_map_iff in H. destruct H as (x & Hx & H). inversion Hx; subst. auto.
        -- rewrite !map_app, !in_app_iff in *. simpl. tauto.
      * intros [Hne H]. rewrite !map_app, !in_app_iff in *. simpl in H.
        destruct H as [H|[[H|[H|H]]|H]]; auto. inversion H; congruence.
  - pose proof (find_path_none k (root t) [] HP HS EF) as Hnone.
    assert (HX : forall k' v', In (k', v') (content t) -> k' <> k).
    { intros k' v' H. apply in_map_iff in H. destruct H as (x & Hx & H). inversion Hx; subst. auto. }
    eexists _, _; split; [reflexivity|]. split; [auto|split].
    + split; [discriminate|]. intros (v & Hv). apply HX in Hv. congruence.
    + intros k' v'. split; [|tauto]. intros H; split; auto. eapply HX; eauto.
Qed.

Lemma step_wf : forall kt o t t', kt <> KStruct -> wf t -> P (op_key o) ->
  run_op cmp kt o t = Some t' -> wf t'.
Proof.
  intros kt [k v|k] t t' Hkt HW HP H; cbn [run_op op_key] in *.
  - destruct (tree_set_ok k v t HW HP) as (t1 & E1 & W1 & _). congruence.
  - destruct (tree_unset_ok kt k t Hkt HW HP) as (t1 & b & E1 & W1 & _).
    rewrite E1 in H; cbn [obind] in H. congruence.
Qed.

(** * Histories *)
Lemma tree_get_binding_aux : forall kt ops t, kt <> KStruct -> wf t ->
  Forall (fun o => P (op_key o)) ops ->
  exists t', run cmp kt ops t = Some t' /\ wf t' /\
    forall k, P k -> tree_get cmp k t' = binding dec ops k (tree_get cmp k t).
Proof.
  intros kt ops. induction ops as [|o ops IH]; intros t Hkt HW HP.
  - exists t; simpl; auto.
  - inversion HP as [|? ? Ho HP']; subst.
    assert (HE : forall (ta tb : rbtree K V) k b, wf ta -> P k -> 
              (forall v, In (k, v) (content ta) <-> b = Some v) -> tree_get cmp k ta = b).
    { intros ta _ k b Hwa Hk Hb. destruct b as [v|].
      - apply tree_get_spec; auto. apply Hb; auto.
      - destruct (tree_get cmp k ta) as [v|] eqn:EG; auto.
        apply tree_get_spec in EG; auto. apply Hb in EG. discriminate. }
    destruct o as [k v|k]; cbn [run run_op op_key binding] in *.
    + destruct (tree_set_ok k v t HW Ho) as (t1 & E1 & W1 & C1).
      rewrite E1; cbn [obind].
      destruct (IH t1 Hkt W1 HP') as (t2 & E2 & W2 & G2).
      exists t2. split; auto. split; auto.
      intros k' Hk'. rewrite G2 by auto. f_equal.
      apply (HE t1 t1); auto. intros v'. rewrite C1. destruct (dec k k') as [->|Hne].
      * split; [intros [[_ ->]|[Hc _]]; congruence|intros H; inversion H; auto].
      * rewrite <- tree_get_spec by auto. split; [intros [[-> _]|[_ H]]; congruence|].
        intros H; right; split; congruence.
    + destruct (tree_unset_ok kt k t Hkt HW Ho) as (t1 & b & E1 & W1 & _ & C1).
      rewrite E1; cbn [obind].
      destruct (IH t1 Hkt W1 HP') as (t2 & E2 & W2 & G2).
      exists t2. split; auto. split; auto.
      intros k' Hk'. rewrite G2 by auto. f_equal.
      apply (HE t1 t1); auto. intros v'. rewrite C1. destruct (dec k k') as [->|Hne].
      * split; [intros [Hc _]; congruence|discriminate].
      * rewrite <- tree_get_spec by auto. split; [intros [_ H]; auto|intros H; split; congruence].
Qed.

Lemma run_wf : forall kt ops t t', kt <> KStruct -> wf t ->
  Forall (fun o => P (op_key o)) ops -> run cmp kt ops t = Some t' -> wf t'.
Proof.
  intros kt ops. induction ops as [|o ops IH]; intros t t' Hkt HW HP HR; simpl in HR.
  - congruence.
  - inversion HP; subst. destruct (run_op cmp kt o t) as [t1|] eqn:E; cbn [obind] in HR; [|discriminate].
    eapply IH; [auto| |auto|exact HR]. eapply step_wf; eauto.
Qed.

End Proofs2.

(** * Balance *)
Section Balance.
Context {K V : Type}.
Notation tree := (tree K V).

Lemma RB_size : forall co n (t : tree), RB co n t -> (2 ^ n <= S (length (tree_inorder t)))%nat.
Proof.
  induction 1; simpl; [lia| |]; rewrite app_length; simpl; lia.
Qed.

Lemma RB_height : forall co n (t : tree), RB co n t ->
  (height t <= match co with Red => S (2 * n) | Black => 2 * n end)%nat.
Proof.
  induction 1; simpl in *; [lia|lia|].
  destruct c1, c2; lia.
Qed.

Lemma RB_height_log : forall n (t : tree), RB Black n t ->
  (height t <= 2 * Nat.log2 (S (length (tree_inorder t))))%nat.
Proof.
  intros n t H. pose proof (RB_size _ _ _ H) as HS. apply RB_height in H.
  assert (n <= Nat.log2 (S (length (tree_inorder t))))%nat.
  { apply Nat.log2_le_pow2; lia. }
  lia.
Qed.
End Balance.
