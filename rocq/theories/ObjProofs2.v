(** * Properties and objects: well-formedness *)
From Coq Require Import ZArith List Bool Lia PeanoNat.
Import ListNotations.
Require Import Verif.TreeModel Verif.TreeSpec Verif.ObjModel Verif.ObjSpec Verif.ObjProofs.
Local Open Scope nat_scope.

Lemma assign_key_true s o k x s' : assign_key s o k x = (s', true) ->
  insert (fst (new_cell s x)) o k (length (cells s)) = (s', true).
Proof.
  unfold assign_key. destruct (new_cell s x) as [s1 c] eqn:E. unfold new_cell in E. injection E as <- <-. cbn [fst].
  destruct (insert _ o k _) as [s2 [|]]; congruence.
Qed.
Lemma assign_key_false s o k x s' : assign_key s o k x = (s', false) -> s' = s.
Proof. unfold assign_key. destruct (new_cell s x) as [s1 c]. destruct (insert _ o k _) as [s2 [|]]; congruence. Qed.
Lemma assign_key_place s o k x s' p : assign_key s o k x = (s', true) ->
  at_place s' p = (if match p with PProp o' k' => (o' =? o) && keqb k k' | _ => false end then Some (length (cells s)) else at_place s p).
Proof. intros H. apply assign_key_true in H. rewrite (insert_place _ _ _ _ _ p H). reflexivity. Qed.
Lemma assign_key_cells s o k x s' : assign_key s o k x = (s', true) ->
  cells s' = cells s ++ [mkC (fst x) (snd x)] /\ vars s' = vars s /\ length (objs s') = length (objs s).
Proof. intros H. apply assign_key_true in H. apply insert_cells in H. exact H. Qed.

Lemma flag_places on cs s : (forall p, at_place (flag_cells s on cs) p = at_place s p) /\ objs (flag_cells s on cs) = objs s /\
  length (cells (flag_cells s on cs)) = length (cells s) /\ vars (flag_cells s on cs) = vars s /\
  (forall d, fst (get_cell (flag_cells s on cs) d) = fst (get_cell s d)).
Proof.
  unfold flag_cells. revert s. induction cs as [|c cs IH]; intros s; cbn [fold_left]; [repeat split; auto|].
  destruct (get_cell s c) as [v f] eqn:E. destruct (IH (set_cell s c (v, on))) as (A & B & C & D & F).
  split; [intros p; rewrite A; apply place_set_cell|]. split; [rewrite B; reflexivity|]. split; [rewrite C; unfold set_cell; cbn [cells]; apply upd_length|].
  split; [rewrite D; reflexivity|]. intros d. rewrite F. destruct (Nat.eq_dec d c) as [->|N]; [|now rewrite get_set_ne].
  destruct (Nat.lt_ge_cases c (length (cells s))) as [L|L].
  - rewrite get_set by assumption. rewrite Nat.eqb_refl, E. reflexivity.
  - unfold get_cell, set_cell in *. cbn [cells]. rewrite (proj2 (nth_error_None _ _)) by (rewrite upd_length; lia).
    rewrite (proj2 (nth_error_None _ _)) by lia. reflexivity.
Qed.
(* the flag of the cells in the list, and of the others *)
Lemma flag_flags on cs s d : snd (get_cell (flag_cells s on cs) d) = (if in_dec Nat.eq_dec d cs then if d <? length (cells s) then on else false else snd (get_cell s d)).
Proof.
  unfold flag_cells. revert s. induction cs as [|c cs IH]; intros s; cbn [fold_left]; [reflexivity|].
  destruct (get_cell s c) as [v f] eqn:E. rewrite IH. unfold set_cell at 1. cbn [cells]. rewrite upd_length.
  destruct (in_dec Nat.eq_dec d (c :: cs)) as [I|I]; destruct (in_dec Nat.eq_dec d cs) as [J|J]; try reflexivity; cbn [In] in I.
  - destruct I as [->|I]; [|contradiction]. destruct (Nat.ltb_spec d (length (cells s))) as [L|L].
    + rewrite get_set by assumption. now rewrite Nat.eqb_refl.
    + unfold get_cell, set_cell. cbn [cells]. rewrite (proj2 (nth_error_None _ _)) by (rewrite upd_length; lia). reflexivity.
  - exfalso. tauto.
  - rewrite get_set_ne by (intros ->; tauto). reflexivity.
Qed.

Definition plain (s s' : st) : Prop := forall p c, at_place s' p = Some c ->
  at_place s p = Some c \/ (length (cells s) <= c < length (cells s') /\ forall q, at_place s' q = Some c -> q = p).
Definition shares (s s' : st) : Prop := forall p c, at_place s' p = Some c ->
  exists q, at_place s q = Some c /\ match p with PVar _ => q = p | _ => match q with PVar _ => False | _ => True end end.
(* every step other than Object.assign and Object.values *)
Definition sharing (x : op) : bool := match x with OAssign _ _ | OValues _ => true | _ => false end.

Lemma plain_refl s : plain s s.
Proof. intros p c H. auto. Qed.
Lemma plain_same s s' : (forall p, at_place s' p = at_place s p) -> plain s s'.
Proof. intros A p c H. rewrite A in H. auto. Qed.
Lemma place_app_obj cs os vs b p : at_place (mkS cs (os ++ [b]) vs) p =
  match p with
  | PProp o k => if o =? length os then find_key k (props b) else at_place (mkS cs os vs) p
  | PElem a i => if a =? length os then match els b with Some l => nth_error l i | None => None end else at_place (mkS cs os vs) p
  | PVar _ => at_place (mkS cs os vs) p
  end.
Proof.
  assert (X : forall o, nth_error (os ++ [b]) o = if o =? length os then Some b else nth_error os o).
  { intros o. destruct (Nat.eqb_spec o (length os)) as [->|N]; [rewrite nth_error_app2, Nat.sub_diag by lia; reflexivity|].
    destruct (Nat.lt_ge_cases o (length os)); [now apply nth_error_app1|].
    rewrite (proj2 (nth_error_None os o)) by lia. apply nth_error_None. rewrite app_length. cbn. lia. }
  destruct p as [o k|a i|y]; cbn [at_place objs vars]; [| |reflexivity]; rewrite X; [destruct (o =? length os)|destruct (a =? length os)]; reflexivity.
Qed.
Lemma parent_app_obj cs os vs b o : parent (mkS cs (os ++ [b]) vs) o = if o =? length os then proto b else parent (mkS cs os vs) o.
Proof.
  unfold parent. cbn [objs]. destruct (Nat.eqb_spec o (length os)) as [->|N]; [rewrite nth_error_app2, Nat.sub_diag by lia; reflexivity|].
  destruct (Nat.lt_ge_cases o (length os)); [now rewrite nth_error_app1|].
  rewrite (proj2 (nth_error_None os o)) by lia. rewrite (proj2 (nth_error_None _ o)) by (rewrite app_length; cbn; lia). reflexivity.
Qed.
Lemma place_lt s p c : wf s -> at_place s p = Some c -> c < length (cells s).
Proof. intros W. apply (wf_cell s W). Qed.

Lemma with_val_cases s r f s' : fst (with_val s r f) = s' -> s' = s \/ exists x, r = Ok x /\ fst (f x) = s'.
Proof. destruct r; cbn; intros <-; eauto. Qed.
Lemma inc_cell_places s c g p : at_place (fst (inc_cell s c g)) p = at_place s p.
Proof. unfold inc_cell. destruct (get_cell s c) as [v [|]]; [reflexivity|]. destruct (g v). reflexivity. Qed.
Lemma inc_cell_rest s c g : objs (fst (inc_cell s c g)) = objs s /\ length (cells (fst (inc_cell s c g))) = length (cells s) /\ vars (fst (inc_cell s c g)) = vars s.
Proof. unfold inc_cell. destruct (get_cell s c) as [v [|]]; [auto|]. destruct (g v). cbn. rewrite upd_length. auto. Qed.
Lemma assign_key_plain s o k x : wf s -> plain s (fst (assign_key s o k x)).
Proof.
  intros W. destruct (assign_key s o k x) as [s' [|]] eqn:E; cbn [fst].
  - intros p c H. pose proof (assign_key_cells _ _ _ _ _ E) as [HC _]. rewrite (assign_key_place _ _ _ _ _ p E) in H.
    assert (L : forall q, at_place s q <> Some (length (cells s))) by (intros q X; apply (place_lt _ _ _ W) in X; lia).
    destruct (match p with PProp o' k' => (o' =? o) && keqb k k' | _ => false end) eqn:B; [|now left].
    right. injection H as <-. rewrite HC, app_length. cbn [length]. split; [lia|]. intros q Hq. rewrite (assign_key_place _ _ _ _ _ q E) in Hq.
    destruct (match q with PProp o' k' => (o' =? o) && keqb k k' | _ => false end) eqn:B'; [|exfalso; eapply L; eassumption].
    destruct p as [o1 k1| |]; try discriminate. destruct q as [o2 k2| |]; try discriminate.
    apply andb_true_iff in B as [B1 B2], B' as [B3 B4]. apply Nat.eqb_eq in B1, B3. apply keqb_eq in B2, B4. congruence.
  - apply assign_key_false in E as ->. apply plain_refl.
Qed.

Lemma nth_app_new {A} (l : list A) x y c : nth_error (l ++ [x]) y = Some c -> nth_error l y = Some c \/ (y = length l /\ c = x).
Proof.
  intros H. destruct (Nat.lt_ge_cases y (length l)) as [L|L].
  - rewrite nth_error_app1 in H by assumption. auto.
  - rewrite nth_error_app2 in H by assumption. destruct (y - length l) as [|j] eqn:D; cbn in H.
    + injection H as <-. right. split; [lia|reflexivity].
    + destruct j; discriminate.
Qed.
Lemma seq_nth a n i c : nth_error (seq a n) i = Some c -> c = a + i /\ i < n.
Proof.
  revert a i. induction n as [|n IH]; intros a [|i] H; cbn in H; try discriminate.
  - injection H as <-. lia.
  - apply IH in H. lia.
Qed.

Theorem step_plain s x : wf s -> sharing x = false -> plain s (fst (step s x)).
Proof.
  intros W HX. destruct x as [o k e|o k f e|o k g|o k|o f m r|p|o src|o p|o|l|a i e| |y e|y g]; cbn [step sharing] in *; try discriminate.
  - destruct (eval s e) as [x| |]; cbn [with_val fst]; try apply plain_refl. now apply assign_key_plain.
  - destruct (read s o k) as [x| |]; cbn [with_val fst]; try apply plain_refl. destruct (eval s e) as [y| |]; cbn [with_val fst]; try apply plain_refl.
    destruct (f x y); [|apply plain_refl]. now apply assign_key_plain.
  - destruct (nth_error (objs s) o); [|apply plain_refl]. destruct (look s o k); try apply plain_refl. apply plain_same. intros p. apply inc_cell_places.
  - destruct (nth_error (objs s) o) as [b|] eqn:E; [|apply plain_refl]. destruct (frz b); [apply plain_refl|]. cbn [fst]. intros p c H. left.
    erewrite place_set_obj in H by (try eassumption; reflexivity). destruct p as [o' k'|a i|y]; auto.
    destruct (Nat.eqb_spec o' o) as [->|N]; [|assumption]. cbn [props] in H. rewrite find_del_ent in H. destruct (keqb k k'); [discriminate|].
    cbn [at_place]. now rewrite E.
  - destruct (nth_error (objs s) o) as [b|] eqn:E; [|apply plain_refl]. cbn [fst]. apply plain_same. intros p.
    assert (X : at_place (set_obj s o (mkO (props b) (proto b) f (negb m) r (els b))) p = at_place s p).
    { erewrite place_set_obj by (try eassumption; reflexivity). destruct p as [o' k'|a i|y]; auto.
      destruct (Nat.eqb_spec o' o) as [->|N]; [|reflexivity]. cbn. now rewrite E. }
    destruct (Bool.eqb _ _); [exact X|]. rewrite (proj1 (flag_places _ _ _)). exact X.
  - destruct (match p with Some p => p <? length (objs s) | None => true end); [|apply plain_refl]. cbn [fst]. intros q c H. left.
    rewrite place_app_obj in H. destruct s as [cs os vs]. cbn [cells objs vars] in *. destruct q as [o' k'|a i|y]; auto.
    + destruct (o' =? length os); [discriminate|auto].
    + destruct (a =? length os); [discriminate|auto].
  - destruct (nth_error (objs s) o) as [b|] eqn:E; [|apply plain_refl]. destruct (nth_error (objs s) p) as [c|] eqn:F; [|apply plain_refl]. cbn [fst].
    apply plain_same. intros q. erewrite place_set_obj by (try eassumption; reflexivity). destruct q as [o' k'|a i|y]; auto.
    destruct (Nat.eqb_spec o' o) as [->|N]; [|reflexivity]. cbn. now rewrite E.
  - cbn [fst]. intros p c H. rewrite place_app_obj in H. cbn [cells props els] in *. rewrite app_length, map_length.
    assert (O : forall q d, at_place (mkS (cells s ++ map (fun v => mkC v false) l) (objs s) (vars s)) q = Some d -> at_place s q = Some d /\ d < length (cells s)).
    { intros q d X. assert (Y : at_place s q = Some d) by (destruct q; exact X). split; [exact Y|]. eapply place_lt; eassumption. }
    destruct p as [o' k'|a i|y].
    + destruct (o' =? length (objs s)); [discriminate|]. left. apply O in H. tauto.
    + destruct (Nat.eqb_spec a (length (objs s))) as [->|N]; [|left; apply O in H; tauto]. right. apply seq_nth in H as [-> H]. split; [lia|].
      intros q Hq. rewrite place_app_obj in Hq. cbn [cells props els] in Hq. destruct q as [o' k'|a' i'|y'].
      * destruct (o' =? length (objs s)); [discriminate|]. apply O in Hq. lia.
      * destruct (Nat.eqb_spec a' (length (objs s))) as [->|N']; [|apply O in Hq; lia]. apply seq_nth in Hq as [Hq _]. f_equal. lia.
      * apply O in Hq. lia.
    + left. apply O in H. tauto.
  - destruct (eval s e) as [x| |]; cbn [with_val fst]; try apply plain_refl.
    destruct (nth_error (objs s) a) as [b|]; [|apply plain_refl]. destruct (els b); [|apply plain_refl]. destruct (nth_error l i); apply plain_same; reflexivity.
  - cbn [fst]. intros p c H. cbn [cells]. rewrite app_length. cbn [length]. destruct p as [o' k'|a i|y]; cbn [at_place objs vars] in *; auto.
    apply nth_app_new in H as [H|[-> ->]]; [auto|]. right. split; [lia|]. intros q Hq. destruct q as [o' k'|a i|y']; cbn [at_place objs vars] in Hq.
    + exfalso. assert (X : at_place s (PProp o' k') = Some (length (cells s))) by exact Hq. apply (place_lt _ _ _ W) in X. lia.
    + exfalso. assert (X : at_place s (PElem a i) = Some (length (cells s))) by exact Hq. apply (place_lt _ _ _ W) in X. lia.
    + apply nth_app_new in Hq as [Hq|[-> _]]; [|reflexivity]. exfalso.
      assert (X : at_place s (PVar y') = Some (length (cells s))) by exact Hq. apply (place_lt _ _ _ W) in X. lia.
  - destruct (eval s e) as [x| |]; cbn [with_val fst]; try apply plain_refl. destruct (nth_error (vars s) y); apply plain_same; reflexivity.
  - destruct (nth_error (vars s) y); [|apply plain_refl]. apply plain_same. intros p. apply inc_cell_places.
Qed.
Lemma assign_all_places l : forall s o s' r, assign_all s o l = (s', r) ->
  cells s' = cells s /\ vars s' = vars s /\ length (objs s') = length (objs s) /\ (forall o', parent s' o' = parent s o') /\
  forall p c, at_place s' p = Some c -> at_place s p = Some c \/ exists e, In e l /\ c = ec e /\ p = PProp o (ek e).
Proof.
  induction l as [|e l IH]; intros s o s' r H; cbn [assign_all] in H.
  - injection H as <- _. repeat split; auto.
  - destruct (een e).
    + destruct (insert s o (ek e) (ec e)) as [s1 [|]] eqn:E.
      * destruct (IH _ _ _ _ H) as (A & B & C & D & F). pose proof (insert_cells _ _ _ _ _ _ E) as (A' & B' & C').
        split; [congruence|]. split; [congruence|]. split; [congruence|]. split.
        { intros o'. rewrite D. eapply insert_parent. eassumption. }
        intros p c X. apply F in X as [X|(e' & I & Y)]; [|right; exists e'; cbn; auto].
        rewrite (insert_place _ _ _ _ _ p E) in X. destruct p as [o1 k1|a i|y]; auto.
        destruct ((o1 =? o) && keqb (ek e) k1) eqn:B1; [|auto]. right. exists e. cbn. apply andb_true_iff in B1 as [B1 B2].
        apply Nat.eqb_eq in B1. apply keqb_eq in B2. subst. split; [auto|]. split; [congruence|reflexivity].
      * injection H as <- <-. apply insert_false in E as ->. repeat split; auto.
    + destruct (IH _ _ _ _ H) as (A & B & C & D & F). repeat split; auto. intros p c X. apply F in X as [X|(e' & I & Y)]; [auto|right; exists e'; cbn; auto].
Qed.
Theorem step_shares s x : wf s -> sharing x = true -> shares s (fst (step s x)).
Proof.
  intros W HX.
  assert (R : shares s s) by (intros p c H; exists p; split; [exact H|]; destruct p; auto).
  destruct x as [o k e|o k f e|o k g|o k|o f m r|p|o src|o p|o|l|a i e| |y e|y g]; cbn [step sharing] in *; try discriminate.
  - destruct (nth_error (objs s) o) as [b0|]; [|exact R]. destruct (nth_error (objs s) src) as [b|] eqn:E; [|exact R].
    unfold ok. cbn [fst]. destruct (assign_all s o (props b)) as [s' r] eqn:A. cbn [fst]. apply assign_all_places in A as (_ & _ & _ & _ & F).
    intros p c H. apply F in H as [H|(e & I & -> & ->)]; [exists p; split; [exact H|]; destruct p; auto|].
    exists (PProp src (ek e)). split; [|auto]. cbn [at_place]. rewrite E. apply find_key_ent; [|exact I]. eapply wf_keys; eassumption.
  - destruct (nth_error (objs s) o) as [b|] eqn:E; [|exact R]. cbn [fst]. intros p c H. rewrite place_app_obj in H. cbn [cells props els] in *.
    assert (O : forall q d, at_place (mkS (cells s) (objs s) (vars s)) q = Some d -> at_place s q = Some d) by (intros q d X; destruct s; exact X).
    destruct p as [o' k'|a i|y].
    + destruct (o' =? length (objs s)); [discriminate|]. exists (PProp o' k'). split; [now apply O|auto].
    + destruct (a =? length (objs s)); [|exists (PElem a i); split; [now apply O|auto]].
      apply nth_error_In in H. apply in_map_iff in H as (e & <- & I). exists (PProp o (ek e)). split; [|auto]. cbn [at_place]. rewrite E.
      apply find_key_ent; [|exact I]. eapply wf_keys; eassumption.
    + exists (PVar y). split; [now apply O|auto].
Qed.
Lemma step_cells_grow s x : length (cells s) <= length (cells (fst (step s x))) /\ length (objs s) <= length (objs (fst (step s x))).
Proof.
  assert (K : forall o k x, length (cells s) <= length (cells (fst (ok (assign_key s o k x)))) /\ length (objs s) <= length (objs (fst (ok (assign_key s o k x))))).
  { intros o k y. unfold ok. cbn [fst]. destruct (assign_key s o k y) as [s' [|]] eqn:E; cbn [fst].
    - apply assign_key_cells in E as (A & _ & B). rewrite A, app_length. lia.
    - apply assign_key_false in E as ->. lia. }
  assert (I : forall c g, length (cells s) <= length (cells (fst (inc_cell s c g))) /\ length (objs s) <= length (objs (fst (inc_cell s c g)))).
  { intros c g. destruct (inc_cell_rest s c g) as (A & B & _). rewrite A, B. lia. }
  destruct x as [o k e|o k f e|o k g|o k|o f m r|p|o src|o p|o|l|a i e| |y e|y g]; cbn [step].
  - destruct (eval s e) as [x| |]; cbn [with_val]; [apply K|cbn; lia..].
  - destruct (read s o k) as [x| |]; cbn [with_val]; [|cbn; lia..]. destruct (eval s e) as [y| |]; cbn [with_val]; [|cbn; lia..].
    destruct (f x y); [apply K|cbn; lia].
  - destruct (nth_error (objs s) o); [|cbn; lia]. destruct (look s o k); [apply I|cbn; lia..].
  - destruct (nth_error (objs s) o) as [b|]; [|cbn; lia]. destruct (frz b); cbn; rewrite ?upd_length; lia.
  - destruct (nth_error (objs s) o) as [b|]; [|cbn; lia]. cbn [fst]. destruct (Bool.eqb _ _); [cbn; rewrite upd_length; lia|].
    destruct (flag_places (negb m) (match els b with Some l => l | None => map ec (props b) end) (set_obj s o (mkO (props b) (proto b) f (negb m) r (els b)))) as (_ & A & B & _).
    rewrite A, B. cbn. rewrite upd_length. lia.
  - destruct (match p with Some p => _ | None => true end); cbn; rewrite ?app_length; lia.
  - destruct (nth_error (objs s) o) as [b0|]; [|cbn; lia]. destruct (nth_error (objs s) src) as [b|]; [|cbn; lia].
    unfold ok. cbn [fst]. destruct (assign_all s o (props b)) as [s' r] eqn:A. cbn [fst]. apply assign_all_places in A as (A & _ & B & _). rewrite A. lia.
  - destruct (nth_error (objs s) o) as [b|]; [|cbn; lia]. destruct (nth_error (objs s) p) as [c|]; cbn; rewrite ?upd_length; lia.
  - destruct (nth_error (objs s) o) as [b|]; cbn; rewrite ?app_length; lia.
  - cbn. rewrite !app_length. lia.
  - destruct (eval s e) as [x| |]; cbn [with_val]; [|cbn; lia..]. destruct (nth_error (objs s) a) as [b|]; [|cbn; lia]. destruct (els b) as [l|]; [|cbn; lia].
    destruct (nth_error l i); cbn; rewrite ?upd_length; lia.
  - cbn. rewrite !app_length. lia.
  - destruct (eval s e) as [x| |]; cbn [with_val]; [|cbn; lia..]. destruct (nth_error (vars s) y); cbn; rewrite ?upd_length; lia.
  - destruct (nth_error (vars s) y); [apply I|cbn; lia].
Qed.
