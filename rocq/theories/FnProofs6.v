(** * How the memory of a program grows *)
Require Import ZArith List Bool Lia.
Import ListNotations.
Require Import Verif.FnModel Verif.FnSpec Verif.FnSpec2 Verif.FnProofs Verif.FnProofs2 Verif.FnProofs3 Verif.FnProofs5.
Local Open Scope nat_scope.

Section Grow.
Context {PS : psys}.
Notation V := (value (prim PS)).
Notation vundef := (VPrim (undef PS)).
Notation mem := (@mem PS).
Notation stmt := (@stmt PS).
Notation fundef := (@fundef PS).

(** ** What the operations do to objects and cells *)
Lemma nth_error_upd {A} (l : list A) i j v :
  nth_error (upd l i v) j = if (j =? i) && (i <? length l) then Some v else nth_error l j.
Proof.
  revert i j. induction l as [|x l IH]; intros i j; cbn [upd length].
  - rewrite andb_false_r. destruct j; reflexivity.
  - destruct i, j; cbn [nth_error]; try reflexivity. rewrite IH. reflexivity.
Qed.
Lemma binding_rebind k k' c ps : binding k' (rebind ps (k, c)) = if k =? k' then Some c else binding k' ps.
Proof.
  unfold rebind. cbn [fst]. destruct (binding k ps) as [c0|] eqn:E.
  - revert E. induction ps as [|[k1 c1] r IH]; cbn; [discriminate|].
    destruct (Nat.eqb_spec k1 k) as [->|Hn].
    + intros _. cbn. destruct (Nat.eqb_spec k k') as [->|Hn2]; [reflexivity|].
      clear IH c0. induction r as [|[k2 c2] r IH]; cbn; [reflexivity|].
      destruct (Nat.eqb_spec k2 k) as [->|]; cbn.
      * destruct (Nat.eqb_spec k k'); [congruence|]. exact IH.
      * destruct (k2 =? k'); [reflexivity|exact IH].
    + intros E. cbn. destruct (Nat.eqb_spec k1 k') as [->|].
      * destruct (Nat.eqb_spec k k'); [congruence|reflexivity].
      * apply IH, E.
  - revert E. induction ps as [|[k1 c1] r IH]; cbn; [reflexivity|].
    destruct (Nat.eqb_spec k1 k) as [->|Hn]; [discriminate|]. intros E.
    destruct (Nat.eqb_spec k1 k') as [->|]; [|apply IH, E].
    destruct (Nat.eqb_spec k k'); [congruence|reflexivity].
Qed.
Lemma obj_at_set (m : mem) a k v a' :
  obj_at (set_prop m a k v) a' =
  match obj_at m a' with
  | Some o => Some (if a' =? a then mkobj (rebind (props o) (k, length (cells m))) (proto o) (fn o) else o)
  | None => None
  end.
Proof.
  unfold set_prop. destruct (obj_at m a) as [o|] eqn:E.
  - assert (Ha : a < length (objs m)) by (apply nth_error_Some; unfold obj_at in E; congruence).
    unfold obj_at at 1. cbn [objs].
    pose proof (upd_split (objs m) a (mkobj (rebind (props o) (k, length (cells m))) (proto o) (fn o))) as U.
    apply Nat.ltb_lt in Ha. rewrite Ha in U. rewrite <- U, nth_error_upd, Ha, andb_true_r.
    fold (obj_at m a'). destruct (Nat.eqb_spec a' a) as [->|]; [now rewrite E|]. destruct (obj_at m a'); reflexivity.
  - unfold add_cells, obj_at at 1. cbn [objs]. fold (obj_at m a').
    destruct (Nat.eqb_spec a' a) as [->|]; [now rewrite E|]. destruct (obj_at m a'); reflexivity.
Qed.
Lemma own_cell_set (m : mem) a k v a' k' :
  own_cell (set_prop m a k v) a' k' =
  match obj_at m a' with
  | Some o => if (a' =? a) && (k =? k') then Some (length (cells m)) else binding k' (props o)
  | None => None
  end.
Proof.
  unfold own_cell. rewrite obj_at_set. destruct (obj_at m a') as [o|]; [|reflexivity].
  destruct (a' =? a); [|reflexivity]. cbn [props andb]. apply binding_rebind.
Qed.
Lemma cells_set (m : mem) a k v : cells (set_prop m a k v) = cells m ++ [v].
Proof. unfold set_prop. destruct (obj_at m a); reflexivity. Qed.
Lemma objs_set_length (m : mem) a k v : length (objs (set_prop m a k v)) = length (objs m).
Proof.
  unfold set_prop. destruct (obj_at m a) as [o|] eqn:E; [|reflexivity]. cbn [objs].
  assert (Ha : a < length (objs m)) by (apply nth_error_Some; unfold obj_at in E; congruence).
  pose proof (upd_split (objs m) a (mkobj (rebind (props o) (k, length (cells m))) (proto o) (fn o))) as U.
  apply Nat.ltb_lt in Ha. rewrite Ha in U. rewrite <- U. apply upd_length.
Qed.
Lemma obj_at_add (m : mem) o a :
  obj_at (add_obj m o) a = if a =? length (objs m) then Some o else obj_at m a.
Proof.
  unfold obj_at, add_obj. cbn [objs]. destruct (Nat.eqb_spec a (length (objs m))) as [->|Hn].
  - now rewrite nth_error_app2, Nat.sub_diag by lia.
  - destruct (Nat.lt_ge_cases a (length (objs m))).
    + now rewrite nth_error_app1 by assumption.
    + rewrite nth_error_app2 by assumption. rewrite (proj2 (nth_error_None _ _)) by (cbn; lia).
      symmetry. now apply nth_error_None.
Qed.
Lemma obj_at_lt (m : mem) a o : obj_at m a = Some o -> a < length (objs m).
Proof. intros H. apply nth_error_Some. unfold obj_at in H. congruence. Qed.
Lemma own_cell_lt (m : mem) a k c : own_cell m a k = Some c -> a < length (objs m).
Proof. unfold own_cell. destruct (obj_at m a) eqn:E; [|discriminate]. intros _. eapply obj_at_lt, E. Qed.

(** ** Growth: new cells and objects; old bindings stay or are replaced by new cells *)
Record grow (m m' : mem) : Prop := {
  gr_cells : exists l, cells m' = cells m ++ l;
  gr_objs : length (objs m) <= length (objs m');
  gr_bind : forall a k c, own_cell m' a k = Some c ->
     own_cell m a k = Some c \/ length (cells m) <= c < length (cells m');
  gr_keep : forall a k, own_cell m a k <> None -> own_cell m' a k <> None;
  gr_uniq : forall a k a' k' c, length (cells m) <= c ->
     own_cell m' a k = Some c -> own_cell m' a' k' = Some c -> a = a' /\ k = k';
  gr_old : forall a o, obj_at m a = Some o -> exists o', obj_at m' a = Some o' /\ proto o' = proto o /\ fn o' = fn o;
  gr_new : forall a o, obj_at m' a = Some o -> length (objs m) <= a -> fn o = None
}.

(* each cell belongs to one property of one object; closures refer to existing scopes *)
Record wf (m : mem) : Prop := {
  wf_bound : forall a k c, own_cell m a k = Some c -> c < length (cells m);
  wf_uniq : forall a k a' k' c, own_cell m a k = Some c -> own_cell m a' k' = Some c -> a = a' /\ k = k';
  wf_scope : forall a f sc, closure_at m a f sc -> forall s, In s sc -> s < length (objs m)
}.
Lemma grow_refl m : wf m -> grow m m.
Proof.
  intros [Hb Hu Hs]. constructor; auto.
  - exists []. now rewrite app_nil_r.
  - intros a k a' k' c Hc H1 H2. eauto.
  - intros a o H. eauto.
  - intros a o H Ha. apply obj_at_lt in H. lia.
Qed.
Lemma grow_cells m m' : grow m m' -> length (cells m) <= length (cells m').
Proof. intros [[l ->] _ _ _ _ _ _]. rewrite app_length. lia. Qed.
Lemma grow_trans a b c : grow a b -> grow b c -> grow a c.
Proof.
  intros G1 G2. pose proof (grow_cells _ _ G1) as L1. pose proof (grow_cells _ _ G2) as L2.
  destruct G1 as [[l1 E1] O1 B1 K1 U1 D1 N1], G2 as [[l2 E2] O2 B2 K2 U2 D2 N2]. constructor; auto.
  - exists (l1 ++ l2). now rewrite E2, E1, app_assoc.
  - lia.
  - intros x k d H. destruct (B2 _ _ _ H) as [H1|H1]; [|right; lia].
    destruct (B1 _ _ _ H1) as [H2|H2]; [now left|right; lia].
  - intros x k x' k' d Hd H1 H2. destruct (Nat.lt_ge_cases d (length (cells b))) as [Hlt|Hge].
    + destruct (B2 _ _ _ H1) as [H3|H3]; [|lia]. destruct (B2 _ _ _ H2) as [H4|H4]; [|lia]. eauto.
    + eauto.
  - intros x o H. destruct (D1 _ _ H) as (o1 & H1 & P1 & F1). destruct (D2 _ _ H1) as (o2 & H2 & P2 & F2).
    exists o2. split; [assumption|]. split; congruence.
  - intros x o H Hx. destruct (Nat.lt_ge_cases x (length (objs b))) as [Hlt|Hge]; [|eauto].
    destruct (obj_at b x) as [o1|] eqn:E.
    + destruct (D2 _ _ E) as (o2 & H2 & P2 & F2). rewrite H in H2. injection H2 as <-. rewrite F2. eauto.
    + apply nth_error_None in E. lia.
Qed.
Lemma grow_closure m m' a f sc : grow m m' -> closure_at m' a f sc -> closure_at m a f sc.
Proof.
  intros G1 (o & Ho & Hf). destruct (Nat.lt_ge_cases a (length (objs m))) as [Hl|Hl].
  - destruct (obj_at m a) as [o0|] eqn:E; [|apply nth_error_None in E; lia].
    destruct (gr_old _ _ G1 _ _ E) as (o' & Ho' & _ & Hf'). rewrite Ho in Ho'. injection Ho' as <-.
    exists o0. split; [assumption|]. congruence.
  - pose proof (gr_new _ _ G1 _ _ Ho Hl). congruence.
Qed.
Lemma grow_wf m m' : wf m -> grow m m' -> wf m'.
Proof.
  intros [Hb Hu Hs] G1. pose proof (grow_cells _ _ G1) as L. constructor.
  - intros a k c H. destruct (gr_bind _ _ G1 _ _ _ H) as [H1|H1]; [apply Hb in H1; lia|lia].
  - intros a k a' k' c H1 H2. destruct (Nat.lt_ge_cases c (length (cells m))) as [Hl|Hl].
    + destruct (gr_bind _ _ G1 _ _ _ H1) as [H3|H3]; [|lia]. destruct (gr_bind _ _ G1 _ _ _ H2) as [H4|H4]; [|lia]. eauto.
    + eapply (gr_uniq _ _ G1); eauto.
  - intros a f sc H s Hin. pose proof (gr_objs _ _ G1). pose proof (Hs a f sc (grow_closure _ _ _ _ _ G1 H) s Hin). lia.
Qed.

Lemma grow_set m a k v : wf m -> grow m (set_prop m a k v).
Proof.
  intros [Hb Hu Hs]. constructor.
  - exists [v]. apply cells_set.
  - rewrite objs_set_length. lia.
  - intros a' k' c. rewrite own_cell_set, cells_set, app_length. cbn [length]. unfold own_cell.
    destruct (obj_at m a') as [o|]; [|discriminate].
    destruct ((a' =? a) && (k =? k')); [|now left]. intros E. injection E as <-. right. lia.
  - intros a' k'. rewrite own_cell_set. unfold own_cell. destruct (obj_at m a') as [o|]; [|auto].
    destruct ((a' =? a) && (k =? k')); [discriminate|auto].
  - intros a1 k1 a2 k2 c Hc. rewrite !own_cell_set.
    destruct (obj_at m a1) as [o1|] eqn:E1; [|discriminate]. destruct (obj_at m a2) as [o2|] eqn:E2; [|discriminate].
    assert (X : forall a' k' o, obj_at m a' = Some o -> binding k' (props o) = Some c -> False).
    { intros a' k' o Eo Ek. assert (own_cell m a' k' = Some c) as H by (unfold own_cell; now rewrite Eo). apply Hb in H. lia. }
    destruct ((a1 =? a) && (k =? k1)) eqn:Q1; [|intros H; exfalso; eauto].
    destruct ((a2 =? a) && (k =? k2)) eqn:Q2; [|intros _ H; exfalso; eauto].
    apply andb_true_iff in Q1, Q2. destruct Q1 as [Q1 R1], Q2 as [Q2 R2].
    apply Nat.eqb_eq in Q1, R1, Q2, R2. subst. auto.
  - intros a' o H. rewrite obj_at_set, H. destruct (a' =? a); eauto.
  - intros a' o H Ha. apply obj_at_lt in H. rewrite objs_set_length in H. lia.
Qed.
Lemma grow_add m o : wf m -> props o = [] -> fn o = None -> grow m (add_obj m o).
Proof.
  intros [Hb Hu Hs] Hp Hf.
  assert (HO : forall a k, own_cell (add_obj m o) a k = own_cell m a k).
  { intros a k. unfold own_cell. rewrite obj_at_add. destruct (Nat.eqb_spec a (length (objs m))) as [->|]; [|reflexivity].
    rewrite Hp. cbn. unfold obj_at. now rewrite (proj2 (nth_error_None _ _)). }
  constructor.
  - exists []. cbn. now rewrite app_nil_r.
  - cbn. rewrite app_length. lia.
  - intros a k c. rewrite HO. now left.
  - intros a k. now rewrite HO.
  - intros a1 k1 a2 k2 c Hc. rewrite !HO. intros H. apply Hb in H. lia.
  - intros a o' H. rewrite obj_at_add. pose proof (obj_at_lt _ _ _ H).
    destruct (Nat.eqb_spec a (length (objs m))); [lia|]. eauto.
  - intros a o' H Ha. rewrite obj_at_add in H. destruct (Nat.eqb_spec a (length (objs m))); [congruence|].
    apply obj_at_lt in H. lia.
Qed.
Lemma grow_fold {A} (g : A -> name * V) a xs m : wf m ->
  grow m (fold_left (fun mm x => set_prop mm a (fst (g x)) (snd (g x))) xs m).
Proof.
  revert m. induction xs as [|x xs IH]; intros m Hw; cbn [fold_left]; [now apply grow_refl|].
  pose proof (grow_set m a (fst (g x)) (snd (g x)) Hw) as G1.
  eapply grow_trans; [exact G1|]. apply IH. eapply grow_wf; eassumption.
Qed.
Lemma grow_literal m kvs : wf m -> grow m (snd (literal m kvs)).
Proof.
  intros Hw. unfold literal. cbn [snd].
  pose proof (grow_add m (mkobj [] (Some object_proto) None) Hw eq_refl eq_refl) as G1.
  eapply grow_trans; [exact G1|]. apply (grow_fold (fun kv => kv)). eapply grow_wf; eassumption.
Qed.
Lemma grow_resolve m en y : wf m -> grow m (snd (resolve m en y)).
Proof.
  intros Hw. unfold resolve. destruct (first_with m y en); cbn [snd]; [now apply grow_refl|now apply grow_set].
Qed.
Lemma grow_receiver m v t m' : wf m -> receiver m v = Some (t, m') -> grow m m'.
Proof.
  intros Hw. destruct v as [p|a]; cbn [receiver].
  - destruct (wrapper PS p); [|discriminate]. intros E. injection E as <- <-. now apply grow_add.
  - intros E. injection E as <- <-. now apply grow_refl.
Qed.

Lemma binding_fold_rebind l ps k c : binding k (fold_left rebind l ps) = Some c -> In (k, c) l \/ binding k ps = Some c.
Proof.
  revert ps. induction l as [|[k1 c1] l IH]; intros ps; cbn [fold_left]; [now right|].
  intros H. apply IH in H. destruct H as [H|H]; [left; now right|].
  rewrite binding_rebind in H. destruct (Nat.eqb_spec k1 k) as [->|]; [left; left; congruence|now right].
Qed.
Lemma combine_seq_uniq (l : list name) b n k k' c :
  In (k, c) (combine l (seq b n)) -> In (k', c) (combine l (seq b n)) -> k = k'.
Proof.
  revert b n. induction l as [|x l IH]; intros b [|n]; cbn [seq combine In]; try tauto.
  intros [H1|H1] [H2|H2].
  - congruence.
  - injection H1 as -> ->. apply in_combine_r in H2. apply in_seq in H2. lia.
  - injection H2 as -> ->. apply in_combine_r in H1. apply in_seq in H1. lia.
  - eauto.
Qed.
Lemma obj_at_params (m : mem) b sa f vs a : sa < length (objs m) ->
  obj_at (with_params m b sa f vs) a =
  if a =? sa then Some (mkobj (fold_left rebind (combine (params f) (seq b (length (params f)))) []) None None) else obj_at m a.
Proof.
  intros Hs. unfold with_params, obj_at at 1. cbn [add_cells cells objs].
  set (o := mkobj _ None None).
  pose proof (upd_split (objs m) sa o) as U. pose proof Hs as Hs'. apply Nat.ltb_lt in Hs. rewrite Hs in U.
  rewrite <- U, nth_error_upd, Hs, andb_true_r. reflexivity.
Qed.
Lemma objs_params_length (m : mem) b sa f vs : sa < length (objs m) -> length (objs (with_params m b sa f vs)) = length (objs m).
Proof.
  intros Hs. unfold with_params. cbn [add_cells cells objs].
  set (o := mkobj _ None None).
  pose proof (upd_split (objs m) sa o) as U. apply Nat.ltb_lt in Hs. rewrite Hs in U. rewrite <- U. apply upd_length.
Qed.

Lemma grow_params (isnew : bool) a f vs m : wf m ->
  let m1 := add_obj (add_cells m vs) (mkobj [] None None) in
  let m2 := if isnew then add_obj m1 (mkobj [] (Some (proto_for m1 a)) None) else m1 in
  grow m (with_params m2 (length (cells m)) (length (objs m)) f vs).
Proof.
  intros [Hb Hu Hs] m1 m2.
  assert (L1 : length (objs m1) = S (length (objs m))) by (unfold m1; cbn; rewrite app_length; cbn; lia).
  assert (L2 : length (objs m) < length (objs m2)) by (unfold m2; destruct isnew; cbn [add_obj objs]; rewrite ?app_length, L1; lia).
  set (m3 := with_params m2 (length (cells m)) (length (objs m)) f vs).
  assert (C3 : cells m3 = cells m ++ vs ++ repeat vundef (length (params f) - length vs)).
  { unfold m3, with_params. cbn [cells add_cells]. unfold m2. destruct isnew; cbn [add_obj cells]; unfold m1; cbn [add_obj add_cells cells]; now rewrite <- app_assoc. }
  assert (LC : length (cells m) + length (params f) <= length (cells m3)).
  { rewrite C3, !app_length, repeat_length. lia. }
  assert (O3 : forall x, x <> length (objs m) -> forall o, obj_at m3 x = Some o ->
             obj_at m x = Some o \/ (length (objs m) <= x /\ props o = [] /\ fn o = None)).
  { intros x Hx o. unfold m3. rewrite obj_at_params by assumption. destruct (Nat.eqb_spec x (length (objs m))); [congruence|].
    unfold m2. destruct isnew.
    - rewrite obj_at_add. destruct (Nat.eqb_spec x (length (objs m1))) as [->|].
      + intros E. injection E as <-. right. split; [lia|split; reflexivity].
      + unfold m1. rewrite obj_at_add. cbn [add_cells objs]. destruct (Nat.eqb_spec x (length (objs m))); [congruence|]. now left.
    - unfold m1. rewrite obj_at_add. cbn [add_cells objs]. destruct (Nat.eqb_spec x (length (objs m))); [congruence|]. now left. }
  assert (OM : forall x o, obj_at m x = Some o -> obj_at m3 x = Some o).
  { intros x o H. pose proof (obj_at_lt _ _ _ H). unfold m3. rewrite obj_at_params by assumption.
    destruct (Nat.eqb_spec x (length (objs m))); [lia|]. unfold m2. destruct isnew.
    - rewrite obj_at_add. destruct (Nat.eqb_spec x (length (objs m1))); [lia|].
      unfold m1. rewrite obj_at_add. cbn [add_cells objs]. destruct (Nat.eqb_spec x (length (objs m))); [lia|]. exact H.
    - unfold m1. rewrite obj_at_add. cbn [add_cells objs]. destruct (Nat.eqb_spec x (length (objs m))); [lia|]. exact H. }
  assert (OS : obj_at m3 (length (objs m)) = Some (mkobj (fold_left rebind (combine (params f) (seq (length (cells m)) (length (params f)))) []) None None)).
  { unfold m3. rewrite obj_at_params by assumption. now rewrite Nat.eqb_refl. }
  assert (B3 : forall x k c, own_cell m3 x k = Some c -> own_cell m x k = Some c \/
      (x = length (objs m) /\ In (k, c) (combine (params f) (seq (length (cells m)) (length (params f)))))).
  { intros x k c. unfold own_cell. destruct (Nat.eq_dec x (length (objs m))) as [->|Hn].
    - rewrite OS. cbn [props]. intros H. apply binding_fold_rebind in H. destruct H as [H|H]; [right; auto|discriminate].
    - destruct (obj_at m3 x) as [o|] eqn:E; [|discriminate].
      destruct (O3 x Hn o E) as [->|(_ & -> & _)]; [now left|discriminate]. }
  constructor.
  - eexists. exact C3.
  - unfold m3. rewrite objs_params_length by assumption. lia.
  - intros x k c H. destruct (B3 _ _ _ H) as [H1|[_ H1]]; [now left|]. right.
    apply in_combine_r in H1. apply in_seq in H1. lia.
  - intros x k H. unfold own_cell in *. destruct (obj_at m x) as [o|] eqn:E; [|congruence]. now rewrite (OM _ _ E).
  - intros x k x' k' c Hc H1 H2.
    destruct (B3 _ _ _ H1) as [H3|[-> H3]]; [apply Hb in H3; lia|].
    destruct (B3 _ _ _ H2) as [H4|[-> H4]]; [apply Hb in H4; lia|]. split; [reflexivity|].
    eapply combine_seq_uniq; eassumption.
  - intros x o H. exists o. rewrite (OM _ _ H). auto.
  - intros x o H Hx. destruct (Nat.eq_dec x (length (objs m))) as [->|Hn].
    + rewrite OS in H. injection H as <-. reflexivity.
    + destruct (O3 x Hn o H) as [H1|(_ & _ & H1)]; [|exact H1]. apply obj_at_lt in H1. lia.
Qed.
Lemma grow_entry isnew a f vs m : wf m -> grow m (entry_mem isnew a f vs m).
Proof.
  intros Hw. unfold entry_mem. pose proof (grow_params isnew a f vs m Hw) as G1. cbn zeta in G1 |- *.
  eapply grow_trans; [exact G1|]. unfold with_locals. apply (grow_fold (fun x => (x, vundef))). eapply grow_wf; eassumption.
Qed.

(** ** Everything that can happen to memory *)
Record later (m m' : mem) : Prop := {
  la_cells : length (cells m) <= length (cells m');
  la_objs : length (objs m) <= length (objs m');
  la_bind : forall a k c, own_cell m' a k = Some c -> own_cell m a k = Some c \/ length (cells m) <= c;
  la_keep : forall a k, own_cell m a k <> None -> own_cell m' a k <> None;
  la_old : forall a o, obj_at m a = Some o -> exists o', obj_at m' a = Some o' /\ proto o' = proto o /\ fn o' = fn o
}.
Lemma later_refl m : later m m.
Proof. constructor; auto. intros a o H. eauto. Qed.
Lemma later_trans a b c : later a b -> later b c -> later a c.
Proof.
  intros [C1 O1 B1 K1 D1] [C2 O2 B2 K2 D2]. constructor; auto; try lia.
  - intros x k d H. destruct (B2 _ _ _ H) as [H1|H1]; [|right; lia]. destruct (B1 _ _ _ H1); [now left|right; lia].
  - intros x o H. destruct (D1 _ _ H) as (o1 & H1 & P1 & F1). destruct (D2 _ _ H1) as (o2 & H2 & P2 & F2).
    exists o2. split; [assumption|]. split; congruence.
Qed.
Lemma grow_later m m' : grow m m' -> later m m'.
Proof.
  intros G1. constructor.
  - now apply grow_cells.
  - apply G1.
  - intros a k c H. destruct (gr_bind _ _ G1 _ _ _ H); [now left|right; lia].
  - apply G1.
  - apply G1.
Qed.
Lemma write_later m c v : later m (writec m c v).
Proof.
  assert (HL : length (cells (writec m c v)) = length (cells m)).
  { rewrite writec_set. cbn [set_cell cells]. apply upd_length. }
  constructor; cbn; auto.
  - cbn in HL. lia.
  - intros a o H. exists o. auto.
Qed.
Lemma write_wf m c v : wf m -> wf (writec m c v).
Proof.
  assert (HL : length (cells (writec m c v)) = length (cells m)).
  { rewrite writec_set. cbn [set_cell cells]. apply upd_length. }
  intros [Hb Hu Hs]. constructor; [rewrite HL; exact Hb|exact Hu|exact Hs].
Qed.
Lemma obj_at_closure (m : mem) en f a :
  obj_at (snd (closure m en f)) a =
  if a =? length (objs m) then Some (mkobj [(prototype, length (cells m))] (Some function_proto) (Some (f, rev en)))
  else if a =? S (length (objs m)) then Some (mkobj [] (Some object_proto) None) else obj_at m a.
Proof.
  unfold closure, obj_at. cbn [snd objs].
  destruct (Nat.eqb_spec a (length (objs m))) as [->|H1]; [now rewrite nth_error_app2, Nat.sub_diag by lia|].
  destruct (Nat.eqb_spec a (S (length (objs m)))) as [->|H2].
  - rewrite nth_error_app2 by lia. now replace (S (length (objs m)) - length (objs m)) with 1 by lia.
  - destruct (Nat.lt_ge_cases a (length (objs m))).
    + now rewrite nth_error_app1 by assumption.
    + rewrite (proj2 (nth_error_None (objs m) a)) by assumption. apply nth_error_None. rewrite app_length. cbn. lia.
Qed.
Lemma own_cell_closure (m : mem) en f a k :
  own_cell (snd (closure m en f)) a k =
  if a =? length (objs m) then (if prototype =? k then Some (length (cells m)) else None) else own_cell m a k.
Proof.
  unfold own_cell. rewrite obj_at_closure. destruct (a =? length (objs m)); [reflexivity|].
  destruct (Nat.eqb_spec a (S (length (objs m)))) as [->|]; [|reflexivity].
  unfold obj_at. now rewrite (proj2 (nth_error_None (objs m) (S (length (objs m))))) by lia.
Qed.
Lemma closure_later (m : mem) en f : later m (snd (closure m en f)).
Proof.
  constructor.
  - cbn. rewrite app_length. lia.
  - cbn. rewrite app_length. lia.
  - intros a k c. rewrite own_cell_closure. destruct (a =? length (objs m)); [|now left].
    destruct (prototype =? k); [|discriminate]. intros E. injection E as <-. now right.
  - intros a k. rewrite own_cell_closure. destruct (Nat.eqb_spec a (length (objs m))) as [->|]; [|auto].
    intros H. exfalso. apply H. unfold own_cell, obj_at. now rewrite (proj2 (nth_error_None _ _)).
  - intros a o H. rewrite obj_at_closure. pose proof (obj_at_lt _ _ _ H).
    destruct (Nat.eqb_spec a (length (objs m))); [lia|]. destruct (Nat.eqb_spec a (S (length (objs m)))); [lia|]. eauto.
Qed.
Lemma closure_closure (m : mem) en f a f' sc : closure_at (snd (closure m en f)) a f' sc ->
  closure_at m a f' sc \/ (f' = f /\ sc = rev en).
Proof.
  intros (o & Ho & Hf). rewrite obj_at_closure in Ho.
  destruct (a =? length (objs m)); [injection Ho as <-; injection Hf as <- <-; now right|].
  destruct (a =? S (length (objs m))); [injection Ho as <-; discriminate|]. left. now exists o.
Qed.
Lemma closure_wf (m : mem) en f : wf m -> (forall s, In s en -> s < length (objs m)) -> wf (snd (closure m en f)).
Proof.
  intros [Hb Hu Hs] He.
  assert (HC : length (cells (snd (closure m en f))) = S (length (cells m))) by (cbn; rewrite app_length; cbn; lia).
  assert (HO : length (objs (snd (closure m en f))) = S (S (length (objs m)))) by (cbn; rewrite app_length; cbn; lia).
  constructor.
  - intros a k c. rewrite HC, own_cell_closure. destruct (a =? length (objs m)).
    + destruct (prototype =? k); [|discriminate]. intros E. injection E as <-. lia.
    + intros H. apply Hb in H. lia.
  - intros a k a' k' c. rewrite !own_cell_closure.
    destruct (Nat.eqb_spec a (length (objs m))) as [->|H1], (Nat.eqb_spec a' (length (objs m))) as [->|H2]; eauto.
    + destruct (Nat.eqb_spec prototype k); [|discriminate]. destruct (Nat.eqb_spec prototype k'); [|discriminate]. split; congruence.
    + destruct (prototype =? k); [|discriminate]. intros E H. injection E as <-. apply Hb in H. lia.
    + intros H. destruct (prototype =? k'); [|discriminate]. intros E. injection E as <-. apply Hb in H. lia.
  - intros a f' sc H s Hin. rewrite HO. apply closure_closure in H. destruct H as [H|[-> ->]].
    + pose proof (Hs _ _ _ H s Hin). lia.
    + apply in_rev in Hin. pose proof (He s Hin). lia.
Qed.
Lemma wf_mem0 : wf mem0.
Proof.
  assert (X : forall a k, own_cell (PS := PS) mem0 a k = None).
  { intros a k. unfold own_cell. unfold obj_at, mem0. cbn [objs]. do 6 (destruct a; [reflexivity|]). destruct a; reflexivity. }
  constructor.
  - intros a k c. rewrite X. discriminate.
  - intros a k a' k' c. rewrite X. discriminate.
  - intros a f sc (o & Ho & Hf). exfalso. unfold obj_at, mem0 in Ho. cbn [objs] in Ho.
    do 6 (destruct a; [injection Ho as <-; discriminate Hf|]). destruct a; discriminate.
Qed.
End Grow.
