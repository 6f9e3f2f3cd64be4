(** Invariant of hash tables and its consequences. *)
From Coq Require Import ZArith List Bool Lia Permutation.
Import ListNotations.
From Verif Require Import TreeModel TreeSpec HashModel.
Local Open Scope Z_scope.

(** ** Lists *)
Lemma upd_length : forall A i (f : A -> A) l, length (upd i f l) = length l.
Proof. intros A i f l; revert i; induction l as [|x l IH]; intros [|i]; simpl; auto. Qed.
Lemma nth_upd_eq : forall A i (f : A -> A) l d, (i < length l)%nat -> nth i (upd i f l) d = f (nth i l d).
Proof. intros A i f l d; revert i; induction l as [|x l IH]; intros [|i] H; simpl in *; try lia; auto. apply IH; lia. Qed.
Lemma nth_upd_neq : forall A i j (f : A -> A) l d, i <> j -> nth j (upd i f l) d = nth j l d.
Proof. intros A i j f l d; revert i j; induction l as [|x l IH]; intros [|i] [|j] H; simpl; try lia; auto. Qed.

Lemma concat_upd_cons : forall A (e : A) bs i, (i < length bs)%nat ->
  Permutation (concat (upd i (cons e) bs)) (e :: concat bs).
Proof.
  induction bs as [|b bs IH]; intros [|i] H; simpl in *; try lia; auto.
  rewrite IH by lia. symmetry. apply Permutation_middle.
Qed.
Lemma concat_upd_remove : forall A (e : A) bs i l1 l2, (i < length bs)%nat -> nth i bs [] = l1 ++ e :: l2 ->
  Permutation (concat bs) (e :: concat (upd i (fun _ => l1 ++ l2) bs)).
Proof.
  induction bs as [|b bs IH]; intros [|i] l1 l2 H G; simpl in *; try lia; auto.
  - subst b. rewrite <- !app_assoc. simpl. symmetry. apply Permutation_middle.
  - rewrite (IH i l1 l2) by (auto; lia). symmetry. apply Permutation_middle.
Qed.
Lemma in_concat_nth : forall A (e : A) bs, In e (concat bs) <-> exists i, (i < length bs)%nat /\ In e (nth i bs []).
Proof.
  induction bs as [|b bs IH]; simpl.
  - split; [tauto|intros (i & H & _); lia].
  - rewrite in_app_iff, IH. split.
    + intros [H|(i & H1 & H2)]; [exists 0%nat|exists (S i)]; simpl; split; auto; lia.
    + intros ([|i] & H1 & H2); auto. right; exists i; split; auto; lia.
Qed.
Lemma in_concat_nth' : forall A (e : A) bs i, In e (nth i bs []) -> In e (concat bs).
Proof.
  intros A e bs i H. apply in_concat_nth. exists i; split; auto.
  destruct (lt_dec i (length bs)); auto. rewrite nth_overflow in H by lia. destruct H.
Qed.
Lemma nth_repeat_nil : forall A n i, nth i (repeat (@nil A) n) [] = [].
Proof. induction n; intros [|i]; simpl; auto. Qed.
Lemma concat_repeat_nil : forall A n, concat (repeat (@nil A) n) = [].
Proof. induction n; simpl; auto. Qed.
Lemma NoDup_map_inj : forall A B (f : A -> B) l x y, NoDup (map f l) -> In x l -> In y l -> f x = f y -> x = y.
Proof.
  induction l as [|a l IH]; simpl; intros x y H Hx Hy E; [tauto|].
  inversion H; subst.
  destruct Hx as [->|Hx], Hy as [->|Hy]; auto.
  - exfalso; apply H2. rewrite E. now apply in_map.
  - exfalso; apply H2. rewrite <- E. now apply in_map.
Qed.

Lemma nodup_app_l : forall A (l1 l2 : list A), NoDup (l1 ++ l2) -> NoDup l1.
Proof.
  induction l1 as [|x l1 IH]; intros l2 H; [constructor|]. inversion H; subst. constructor; eauto.
  intros J; apply H2. rewrite in_app_iff; auto.
Qed.
Lemma nodup_app_r : forall A (l1 l2 : list A), NoDup (l1 ++ l2) -> NoDup l2.
Proof. induction l1 as [|x l1 IH]; intros l2 H; auto. inversion H; subst; auto. Qed.

(** ** Key types that file and look for an entry under the same bucket *)
Record good_kind {K} (P : K -> Prop) (kd : kind K) : Prop := {
  gk_range : forall ds n k, 0 <= n -> P k -> 0 <= k_index kd ds (2 ^ n - 1) k < 2 ^ n;
  gk_del : forall ds n k, 0 <= n -> P k -> k_delidx kd ds (2 ^ n - 1) (k_hval kd k) = k_index kd ds (2 ^ n - 1) k;
  gk_reb : forall ds n k, 0 <= n -> P k -> k_rebidx kd ds (2 ^ n - 1) (k_hval kd k) k = k_index kd ds (2 ^ n - 1) k;
  gk_test : forall k k', P k -> P k' -> (k_test kd k (k_hval kd k') k' = true <-> k = k')
}.

Section P.
Context {K V : Type}.
Variable P : K -> Prop.
Variable kd : kind K.
Hypothesis G : good_kind P kd.
Notation entry := (hentry K V).
Notation tbl := (table K V).

Definition ents (t : tbl) : list entry := concat (buckets t).

(** Every entry is well formed and filed where it will be looked for. *)
Definition placed (ds m : Z) (bs : list (list entry)) : Prop :=
  forall i e, In e (nth i bs []) ->
    P (hkey e) /\ hval e = k_hval kd (hkey e) /\ Z.to_nat (k_index kd ds m (hkey e)) = i.

Record inv (t : tbl) : Prop := {
  iv_size : exists j : nat, numBuckets t = 2 ^ (4 + 2 * Z.of_nat j);
  iv_mask : mask t = numBuckets t - 1;
  iv_reb  : rebuildSize t = 3 * numBuckets t;
  iv_max : rebuildSize t <= 2147483647;
  iv_len  : length (buckets t) = Z.to_nat (numBuckets t);
  iv_place : placed (downShift t) (mask t) (buckets t);
  iv_keys : NoDup (map hkey (ents t));
  iv_ptrs : NoDup (map hptr (ents t));
  iv_fresh : Forall (fun e => (hptr e < nextp t)%nat) (ents t);
  iv_num : hnumEntries t = Z.of_nat (length (ents t));
  iv_room : hnumEntries t < rebuildSize t
}.

Lemma inv_new : inv hash_new.
Proof.
  assert (E : ents (hash_new (K:=K) (V:=V)) = []) by reflexivity.
  constructor; rewrite ?E.
  - exists 0%nat. reflexivity.
  - reflexivity.
  - reflexivity.
  - simpl. lia.
  - reflexivity.
  - intros i e H. change (In e (nth i (repeat [] 16) [])) in H. rewrite nth_repeat_nil in H. destruct H.
  - constructor.
  - constructor.
  - constructor.
  - reflexivity.
  - reflexivity.
Qed.

Lemma idx_range : forall t k, inv t -> P k ->
  0 <= k_index kd (downShift t) (mask t) k < numBuckets t.
Proof.
  intros t k I Pk. destruct (iv_size _ I) as [j Hj]. rewrite (iv_mask _ I), Hj.
  apply (gk_range _ _ G); auto; lia.
Qed.
Lemma idx_lt : forall t k, inv t -> P k ->
  (Z.to_nat (k_index kd (downShift t) (mask t) k) < length (buckets t))%nat.
Proof. intros t k I Pk. rewrite (iv_len _ I). pose proof (idx_range t k I Pk). lia. Qed.

Lemma ent_placed : forall t e, inv t -> In e (ents t) ->
  P (hkey e) /\ hval e = k_hval kd (hkey e) /\
  In e (bucket (k_index kd (downShift t) (mask t) (hkey e)) (buckets t)).
Proof.
  intros t e I H. unfold ents in H. apply in_concat_nth in H. destruct H as (i & _ & H).
  destruct (iv_place _ I i e H) as (A & B & C). split; auto. split; auto. unfold bucket. now rewrite C.
Qed.

Lemma find_spec : forall t k e, inv t -> P k ->
  (hash_find kd k t = Some e <-> In e (ents t) /\ hkey e = k).
Proof.
  intros t k e I Pk. unfold hash_find. split.
  - intros H. apply find_some in H. destruct H as [H1 H2].
    pose proof (in_concat_nth' _ _ _ _ H1) as H3. fold (ents t) in H3.
    destruct (ent_placed _ _ I H3) as (A & B & _). split; auto.
    rewrite B in H2. apply (gk_test _ _ G) in H2; auto.
  - intros [H1 H2].
    destruct (ent_placed _ _ I H1) as (A & B & C). rewrite H2 in C.
    match goal with |- ?f = _ => destruct f as [e'|] eqn:F end.
    + apply find_some in F. destruct F as [F1 F2].
      pose proof (in_concat_nth' _ _ _ _ F1) as F3.
      destruct (ent_placed _ _ I F3) as (A' & B' & _).
      rewrite B' in F2. apply (gk_test _ _ G) in F2; auto.
      f_equal. eapply NoDup_map_inj with (f := hkey); [apply (iv_keys _ I)|exact F3|exact H1|congruence].
    + eapply find_none in F; [|exact C]. simpl in F. rewrite B in F.
      assert (k_test kd k (k_hval kd (hkey e)) (hkey e) = true) by (apply (gk_test _ _ G); auto). congruence.
Qed.
Lemma find_none_spec : forall t k, inv t -> P k ->
  (hash_find kd k t = None <-> ~ In k (map hkey (ents t))).
Proof.
  intros t k I Pk. split.
  - intros H J. apply in_map_iff in J. destruct J as (e & J1 & J2).
    assert (hash_find kd k t = Some e) by (apply find_spec; auto). congruence.
  - intros H. destruct (hash_find kd k t) as [e|] eqn:F; auto.
    apply find_spec in F; auto. destruct F as [F1 F2]. exfalso; apply H.
    rewrite <- F2. now apply in_map.
Qed.

(** ** Rebuilding *)
Lemma rebuild_fold : forall ds n es bs, 0 <= n ->
  length bs = Z.to_nat (2 ^ n) ->
  placed ds (2 ^ n - 1) bs ->
  Forall (fun e => P (hkey e) /\ hval e = k_hval kd (hkey e)) es ->
  let bs' := fold_left (fun bs e => upd_bucket (k_rebidx kd ds (2 ^ n - 1) (hval e) (hkey e)) (cons e) bs) es bs in
  length bs' = length bs /\ placed ds (2 ^ n - 1) bs' /\ Permutation (concat bs') (es ++ concat bs).
Proof.
  intros ds n es. induction es as [|e es IH]; intros bs Hn HL HP HF; simpl; auto.
  inversion HF as [|x l [Hk Hv] HF' E1]; subst.
  rewrite Hv, (gk_reb _ _ G) by auto.
  pose proof (gk_range _ _ G ds n (hkey e) Hn Hk) as HR.
  set (ix := k_index kd ds (2 ^ n - 1) (hkey e)) in *.
  assert (HI : (Z.to_nat ix < length bs)%nat) by lia.
  destruct (IH (upd_bucket ix (cons e) bs) Hn) as (A & B & C); auto.
  - unfold upd_bucket. rewrite upd_length. auto.
  - intros i x Hx. unfold upd_bucket in Hx. destruct (Nat.eq_dec (Z.to_nat ix) i) as [<-|Hne].
    + rewrite nth_upd_eq in Hx by auto. destruct Hx as [<-|Hx]; auto.
    + rewrite nth_upd_neq in Hx by auto. auto.
  - split; [|split]; auto.
    + rewrite A. apply upd_length.
    + rewrite C. unfold upd_bucket. rewrite concat_upd_cons by auto. symmetry. apply Permutation_middle.
Qed.

Lemma rebuild_ok : forall t t', rebuild kd t = Some t' ->
  (exists j : nat, numBuckets t = 2 ^ (4 + 2 * Z.of_nat j)) ->
  rebuildSize t = 3 * numBuckets t ->
  Forall (fun e => P (hkey e) /\ hval e = k_hval kd (hkey e)) (ents t) ->
  NoDup (map hkey (ents t)) -> NoDup (map hptr (ents t)) ->
  Forall (fun e => (hptr e < nextp t)%nat) (ents t) ->
  hnumEntries t = Z.of_nat (length (ents t)) -> hnumEntries t <= rebuildSize t ->
  inv t' /\ Permutation (ents t') (ents t) /\ hnumEntries t' = hnumEntries t /\ nextp t' = nextp t.
Proof.
  intros t t' H [j Hj] Hr HF HK HQ HN HC HM.
  unfold rebuild in H. destruct (2147483647 <? rebuildSize t * 4) eqn:EM; [discriminate|].
  apply Z.ltb_ge in EM.
  assert (E4 : numBuckets t * 4 = 2 ^ (4 + 2 * Z.of_nat (S j))).
  { rewrite Hj. replace (4 + 2 * Z.of_nat (S j)) with ((4 + 2 * Z.of_nat j) + 2) by lia.
    rewrite (Z.pow_add_r 2 (4 + 2 * Z.of_nat j) 2) by lia. reflexivity. }
  injection H as <-.
  set (n := 4 + 2 * Z.of_nat (S j)) in *.
  assert (Hn : 0 <= n) by (unfold n; lia).
  destruct (rebuild_fold (downShift t - 2) n (ents t) (repeat [] (Z.to_nat (numBuckets t * 4))) Hn) as (A & B & C); auto.
  - rewrite repeat_length. now rewrite E4.
  - intros i e Hi. rewrite nth_repeat_nil in Hi. destruct Hi.
  - rewrite concat_repeat_nil, app_nil_r in C. rewrite <- E4 in A, B, C.
    unfold ents at 1. simpl. split; [|split; [|split]]; auto.
    assert (PE : Permutation (concat (buckets t)) (ents t)) by reflexivity.
    assert (0 < numBuckets t) by (rewrite Hj; apply Z.pow_pos_nonneg; lia).
    constructor; cbn [numBuckets mask rebuildSize buckets downShift hnumEntries nextp]; auto.
    + exists (S j). exact E4.
    + lia.
    + unfold ents in A. rewrite A, repeat_length. auto.
    + unfold ents; simpl. eapply Permutation_NoDup; [|exact HK]. apply Permutation_map. symmetry; exact C.
    + unfold ents; simpl. eapply Permutation_NoDup; [|exact HQ]. apply Permutation_map. symmetry; exact C.
    + unfold ents; simpl. rewrite Forall_forall in *. intros x Hx. apply HN. eapply Permutation_in; [exact C|exact Hx].
    + unfold ents; simpl. rewrite HC. f_equal. apply Permutation_length. symmetry. exact C.
    + lia.
Qed.

Lemma ents_good : forall t, inv t -> Forall (fun e => P (hkey e) /\ hval e = k_hval kd (hkey e)) (ents t).
Proof.
  intros t I. rewrite Forall_forall. intros e He. destruct (ent_placed _ _ I He) as (A & B & _). auto.
Qed.

(** ** Creating an entry *)
Lemma entry_new_ok : forall t k e nw t', inv t -> P k ->
  hash_entry_new kd k t = Some (e, nw, t') ->
  inv t' /\ In e (ents t') /\ hkey e = k /\
  (if nw then ~ In k (map hkey (ents t)) /\ Permutation (ents t') (e :: ents t) /\ hptr e = nextp t /\
              hdata e = None /\ hnumEntries t' = hnumEntries t + 1 /\ nextp t' = S (nextp t)
   else t' = t /\ In e (ents t)).
Proof.
  intros t k e nw t' I Pk H. unfold hash_entry_new in H.
  destruct (hash_find kd k t) as [e0|] eqn:F.
  - injection H as <- <- <-. apply find_spec in F; auto. tauto.
  - apply find_none_spec in F; auto.
    pose proof (idx_lt t k I Pk) as HI.
    set (ix := k_index kd (downShift t) (mask t) k) in *.
    set (e0 := mkH (nextp t) k (k_hval kd k) None) in *.
    set (t1 := mkTable (upd_bucket ix (cons e0) (buckets t)) (numBuckets t) (hnumEntries t + 1)
                 (rebuildSize t) (downShift t) (mask t) (S (nextp t))) in *.
    assert (E1 : Permutation (ents t1) (e0 :: ents t)).
    { unfold ents; simpl. unfold upd_bucket. apply concat_upd_cons; auto. }
    assert (HG1 : Forall (fun e => P (hkey e) /\ hval e = k_hval kd (hkey e)) (ents t1)).
    { rewrite Forall_forall. intros x Hx. eapply Permutation_in in Hx; [|exact E1].
      destruct Hx as [<-|Hx]; [auto|]. pose proof (ents_good t I) as HG. rewrite Forall_forall in HG; auto. }
    assert (HK1 : NoDup (map hkey (ents t1))).
    { eapply Permutation_NoDup; [apply Permutation_map; symmetry; exact E1|]. simpl. constructor; auto. apply (iv_keys _ I). }
    assert (HN0 := iv_fresh _ I). rewrite Forall_forall in HN0.
    assert (HQ1 : NoDup (map hptr (ents t1))).
    { eapply Permutation_NoDup; [apply Permutation_map; symmetry; exact E1|]. simpl. constructor; [|apply (iv_ptrs _ I)].
      intros J. apply in_map_iff in J. destruct J as (x & J1 & J2). apply HN0 in J2. lia. }
    assert (HN1 : Forall (fun e => (hptr e < nextp t1)%nat) (ents t1)).
    { rewrite Forall_forall. intros x Hx. eapply Permutation_in in Hx; [|exact E1]. simpl.
      destruct Hx as [<-|Hx]; [simpl; lia|]. apply HN0 in Hx. lia. }
    assert (HC1 : hnumEntries t1 = Z.of_nat (length (ents t1))).
    { rewrite (Permutation_length E1). simpl. rewrite (iv_num _ I). lia. }
    pose proof (iv_room _ I) as HRm.
    destruct (hnumEntries t1 >=? rebuildSize t1) eqn:ER.
    + destruct (rebuild kd t1) as [t2|] eqn:ET; [|discriminate]. simpl in H. injection H as <- <- <-.
      destruct (rebuild_ok t1 t2 ET) as (A & B & C & D); auto.
      * exact (iv_size _ I).
      * exact (iv_reb _ I).
      * simpl. lia.
      * assert (B' : Permutation (ents t2) (e0 :: ents t)) by (rewrite B; exact E1).
        split; auto. split; [eapply Permutation_in; [symmetry; exact B'|left; auto]|].
        split; auto. simpl. repeat split; auto.
    + rewrite Z.geb_leb in ER. apply Z.leb_gt in ER.
      injection H as <- <- <-.
      assert (I1 : inv t1).
      { destruct I as [i1 i2 i3 i4 i5 i6 i7 i8 i9 i10 i11].
        constructor; auto.
        - unfold t1, upd_bucket; simpl. now rewrite upd_length.
        - intros i x Hx. simpl in Hx. unfold upd_bucket in Hx.
          destruct (Nat.eq_dec (Z.to_nat ix) i) as [<-|Hne].
          + rewrite nth_upd_eq in Hx by auto. destruct Hx as [<-|Hx]; [simpl; auto|]. apply i6; auto.
          + rewrite nth_upd_neq in Hx by auto. apply i6; auto. }
      split; auto. split; [eapply Permutation_in; [symmetry; exact E1|left; auto]|].
      split; auto. simpl. repeat split; auto.
Qed.

(** When creation fails: the table is at the largest size an int can count. *)
Lemma entry_new_fails : forall t k, inv t -> P k -> hash_entry_new kd k t = None ->
  805306368 <= hnumEntries t + 1.
Proof.
  intros t k I Pk H. unfold hash_entry_new in H.
  destruct (hash_find kd k t); [discriminate|].
  destruct (hnumEntries _ >=? rebuildSize _) eqn:ER; [|discriminate].
  simpl in ER. rewrite Z.geb_leb in ER. apply Z.leb_le in ER.
  unfold rebuild in H. simpl in H. destruct (2147483647 <? rebuildSize t * 4) eqn:EM; [|discriminate].
  apply Z.ltb_lt in EM.
  destruct (iv_size _ I) as [j Hj]. rewrite (iv_reb _ I), Hj in *.
  enough (268435456 <= 2 ^ (4 + 2 * Z.of_nat j)) by lia.
  change 268435456 with (2 ^ 28). apply Z.pow_le_mono_r; [lia|].
  destruct (Z_lt_ge_dec (Z.of_nat j) 12) as [L|L]; [|lia].
  assert (2 ^ (4 + 2 * Z.of_nat j) <= 2 ^ 26) by (apply Z.pow_le_mono_r; lia). lia.
Qed.

(** ** Values *)
Definition setv (p : nat) (v : option V) (e : entry) : entry :=
  if Nat.eqb (hptr e) p then mkH (hptr e) (hkey e) (hval e) v else e.
Lemma setv_key : forall p v e, hkey (setv p v e) = hkey e.
Proof. intros; unfold setv; destruct (Nat.eqb _ _); auto. Qed.
Lemma setv_ptr : forall p v e, hptr (setv p v e) = hptr e.
Proof. intros; unfold setv; destruct (Nat.eqb _ _); auto. Qed.
Lemma setv_hval : forall p v e, hval (setv p v e) = hval e.
Proof. intros; unfold setv; destruct (Nat.eqb _ _); auto. Qed.
Lemma ents_value_set : forall p v t, ents (value_set p v t) = map (setv p v) (ents t).
Proof. intros. unfold ents; simpl. rewrite concat_map. reflexivity. Qed.
Lemma inv_value_set : forall p v t, inv t -> inv (value_set p v t).
Proof.
  intros p v t I. pose proof (ents_value_set p v t) as E.
  destruct I as [i1 i2 i3 i4 i5 i6 i7 i8 i9 i10 i11].
  assert (EK : map hkey (ents (value_set p v t)) = map hkey (ents t)).
  { rewrite E, map_map. apply map_ext. intros; apply setv_key. }
  assert (EP : map hptr (ents (value_set p v t)) = map hptr (ents t)).
  { rewrite E, map_map. apply map_ext. intros; apply setv_ptr. }
  constructor; auto.
  - simpl. now rewrite map_length.
  - intros i e H. simpl in H. change (@nil entry) with (map (setv p v) []) in H.
    rewrite (map_nth (map (setv p v))) in H. apply in_map_iff in H. destruct H as (x & <- & H).
    rewrite setv_key, setv_hval. simpl. apply i6; auto.
  - now rewrite EK.
  - now rewrite EP.
  - rewrite E. rewrite Forall_forall in *. intros x Hx. apply in_map_iff in Hx. destruct Hx as (y & <- & Hy).
    rewrite setv_ptr. simpl. auto.
  - simpl. rewrite E, map_length. auto.
Qed.

Lemma get_spec : forall t k v, inv t -> P k ->
  (hash_get kd k t = Some v <-> exists e, In e (ents t) /\ hkey e = k /\ hdata e = Some v).
Proof.
  intros t k v I Pk. unfold hash_get. destruct (hash_find kd k t) as [e|] eqn:F.
  - apply find_spec in F; auto. destruct F as [F1 F2]. split.
    + intros H; exists e; auto.
    + intros (e' & H1 & H2 & H3). enough (e = e') by congruence.
      eapply NoDup_map_inj with (f := hkey); [apply (iv_keys _ I)|auto|auto|congruence].
  - apply find_none_spec in F; auto. split; [discriminate|]. intros (e' & H1 & H2 & H3).
    exfalso; apply F. rewrite <- H2. now apply in_map.
Qed.
Lemma get_ext : forall t t' k, inv t -> inv t' -> P k ->
  (forall v, (exists e, In e (ents t) /\ hkey e = k /\ hdata e = Some v) <->
             (exists e, In e (ents t') /\ hkey e = k /\ hdata e = Some v)) ->
  hash_get kd k t = hash_get kd k t'.
Proof.
  intros t t' k I I' Pk H.
  destruct (hash_get kd k t) as [v|] eqn:E1.
  - apply get_spec in E1; auto. apply H in E1. symmetry. now apply get_spec.
  - destruct (hash_get kd k t') as [v|] eqn:E2; auto.
    apply get_spec in E2; auto. apply H in E2. apply get_spec in E2; auto. congruence.
Qed.

Lemma set_inv : forall t k v t', inv t -> P k -> hash_set kd k v t = Some t' -> inv t'.
Proof.
  intros t k v t' I Pk H. unfold hash_set in H.
  destruct (hash_entry_new kd k t) as [[[e nw] t1]|] eqn:F; [|discriminate]. simpl in H.
  injection H as <-. apply inv_value_set. eapply entry_new_ok; eauto.
Qed.

Lemma get_set_same : forall t k v t', inv t -> P k -> hash_set kd k v t = Some t' ->
  hash_get kd k t' = Some v.
Proof.
  intros t k v t' I Pk H. pose proof (set_inv _ _ _ _ I Pk H) as I'. unfold hash_set in H.
  destruct (hash_entry_new kd k t) as [[[e nw] t1]|] eqn:F; [|discriminate]. simpl in H.
  injection H as <-. destruct (entry_new_ok _ _ _ _ _ I Pk F) as (I1 & A & B & _).
  apply get_spec; auto. exists (setv (hptr e) (Some v) e).
  rewrite ents_value_set, setv_key. split; [now apply in_map|]. split; auto.
  unfold setv. rewrite Nat.eqb_refl. reflexivity.
Qed.

Lemma get_set_other : forall t k v t' k', inv t -> P k -> P k' -> k' <> k -> hash_set kd k v t = Some t' ->
  hash_get kd k' t' = hash_get kd k' t.
Proof.
  intros t k v t' k' I Pk Pk' Hne H. pose proof (set_inv _ _ _ _ I Pk H) as I'. unfold hash_set in H.
  destruct (hash_entry_new kd k t) as [[[e nw] t1]|] eqn:F; [|discriminate]. simpl in H.
  injection H as <-. destruct (entry_new_ok _ _ _ _ _ I Pk F) as (I1 & A & B & C).
  assert (X : forall x, hkey x = k' -> In x (ents t1) -> setv (hptr e) (Some v) x = x).
  { intros x Hx Hin. unfold setv. destruct (Nat.eqb (hptr x) (hptr e)) eqn:E; auto.
    apply Nat.eqb_eq in E. exfalso. apply Hne. rewrite <- Hx, <- B. f_equal.
    eapply NoDup_map_inj with (f := hptr); [apply (iv_ptrs _ I1)| | |]; auto. }
  assert (Y : forall x, hkey x = k' -> (In x (ents t1) <-> In x (ents t))).
  { intros x Hx. destruct nw.
    - destruct C as (C0 & C1 & _). split; intros Hin.
      + eapply Permutation_in in Hin; [|exact C1]. destruct Hin as [<-|Hin]; auto. congruence.
      + eapply Permutation_in; [symmetry; exact C1|]. right; auto.
    - destruct C as [-> _]. tauto. }
  apply get_ext; auto. intros w. split.
  - intros (x & H1 & H2 & H3). rewrite ents_value_set in H1. apply in_map_iff in H1. destruct H1 as (y & Hy & H1).
    assert (hkey y = k') by (rewrite <- (setv_key (hptr e) (Some v)), Hy; auto).
    rewrite (X y) in Hy by auto. subst y. exists x. rewrite <- Y by auto. auto.
  - intros (x & H1 & H2 & H3). exists x. rewrite ents_value_set. split; auto.
    apply Y in H1; auto. rewrite <- (X x) by auto. now apply in_map.
Qed.

(** ** Deletion *)
Lemma unlink_ok : forall p (l : list entry) e, In e l -> hptr e = p -> NoDup (map hptr l) ->
  exists l1 l2, l = l1 ++ e :: l2 /\ unlink p l = Some (l1 ++ l2).
Proof.
  induction l as [|x l IH]; simpl; intros e He Hp HN; [tauto|].
  inversion HN; subst. destruct (Nat.eqb (hptr x) (hptr e)) eqn:E.
  - apply Nat.eqb_eq in E. destruct He as [<-|He].
    + exists [], l. auto.
    + exfalso. apply H1. rewrite E. now apply in_map.
  - destruct He as [<-|He]; [rewrite Nat.eqb_refl in E; discriminate|].
    destruct (IH e He eq_refl H2) as (l1 & l2 & -> & B).
    exists (x :: l1), l2. rewrite B. auto.
Qed.
Lemma NoDup_nth_map : forall (bs : list (list entry)) i, NoDup (map hptr (concat bs)) -> NoDup (map hptr (nth i bs [])).
Proof.
  induction bs as [|b bs IH]; intros [|i] H; simpl in *; try constructor; auto.
  - rewrite map_app in H. eapply nodup_app_l; eauto.
  - apply IH. rewrite map_app in H. eapply nodup_app_r; eauto.
Qed.

Lemma delete_ok : forall t e, inv t -> In e (ents t) ->
  exists t', entry_delete kd e t = Some t' /\ inv t' /\ Permutation (ents t) (e :: ents t') /\
    hnumEntries t' = hnumEntries t - 1 /\ nextp t' = nextp t /\
    exists i l1 l2, (i < length (buckets t))%nat /\ nth i (buckets t) [] = l1 ++ e :: l2 /\
      buckets t' = upd i (fun _ => l1 ++ l2) (buckets t).
Proof.
  intros t e I He. destruct (ent_placed _ _ I He) as (A & B & C).
  pose proof (idx_lt t (hkey e) I A) as HI.
  destruct (iv_size _ I) as [j Hj].
  assert (ED : k_delidx kd (downShift t) (mask t) (hval e) = k_index kd (downShift t) (mask t) (hkey e)).
  { rewrite B, (iv_mask _ I), Hj. apply (gk_del _ _ G); auto; lia. }
  unfold entry_delete. rewrite ED. set (ix := k_index kd (downShift t) (mask t) (hkey e)) in *.
  destruct (unlink_ok (hptr e) _ e C eq_refl (NoDup_nth_map _ _ (iv_ptrs _ I))) as (l1 & l2 & E1 & E2).
  rewrite E2. simpl. unfold bucket in E1.
  pose proof (concat_upd_remove _ e (buckets t) _ l1 l2 HI E1) as HP.
  eexists; split; [reflexivity|].
  set (t' := mkTable _ _ _ _ _ _ _).
  assert (PE : Permutation (ents t) (e :: ents t')) by exact HP.
  destruct I as [i1 i2 i3 i4 i5 i6 i7 i8 i9 i10 i11].
  assert (I' : inv t').
  { constructor; auto.
    - simpl. unfold upd_bucket. now rewrite upd_length.
    - intros i x Hx. simpl in Hx. unfold upd_bucket in Hx.
      apply (i6 i x). destruct (Nat.eq_dec (Z.to_nat ix) i) as [<-|Hne].
      + rewrite nth_upd_eq in Hx by auto. rewrite E1. rewrite in_app_iff in *. simpl. tauto.
      + rewrite nth_upd_neq in Hx by auto. auto.
    - eapply Permutation_NoDup in i7; [|apply Permutation_map; exact PE]. inversion i7; auto.
    - eapply Permutation_NoDup in i8; [|apply Permutation_map; exact PE]. inversion i8; auto.
    - rewrite Forall_forall in *. intros x Hx. apply i9. eapply Permutation_in; [symmetry; exact PE|right; auto].
    - cbn [hnumEntries t']. rewrite i10, (Permutation_length PE). cbn [length]. lia.
    - simpl. lia. }
  split; auto. split; auto. split; auto. split; auto.
  exists (Z.to_nat ix), l1, l2. auto.
Qed.

Lemma unset_ok : forall t k, inv t -> P k ->
  exists t' b, hash_unset kd k t = Some (t', b) /\ inv t' /\ hnumEntries t' <= hnumEntries t /\
    (b = true <-> In k (map hkey (ents t))) /\
    hash_get kd k t' = None /\ ~ In k (map hkey (ents t')) /\
    (forall e, hkey e <> k -> (In e (ents t') <-> In e (ents t))).
Proof.
  intros t k I Pk. unfold hash_unset. destruct (hash_find kd k t) as [e|] eqn:F.
  - pose proof F as F0. apply find_spec in F0; auto. destruct F0 as [F1 F2].
    destruct (delete_ok t e I F1) as (t' & E1 & I' & PE & HN & _ & _).
    rewrite E1. simpl. exists t', true.
    assert (NK : ~ In k (map hkey (ents t'))).
    { pose proof (iv_keys _ I) as HK. eapply Permutation_NoDup in HK; [|apply Permutation_map; exact PE].
      simpl in HK. rewrite F2 in HK. inversion HK; auto. }
    split; auto. split; auto. split; [lia|]. split.
    { split; auto. intros _. rewrite <- F2. now apply in_map. }
    split; [|split; auto].
    + destruct (hash_get kd k t') as [v|] eqn:EG; auto. apply get_spec in EG; auto.
      destruct EG as (x & X1 & X2 & _). exfalso; apply NK. rewrite <- X2. now apply in_map.
    + intros x Hx. split; intros Hin.
      * eapply Permutation_in; [symmetry; exact PE|right; auto].
      * eapply Permutation_in in Hin; [|exact PE]. destruct Hin as [<-|Hin]; auto. congruence.
  - exists t, false. pose proof F as F0. apply find_none_spec in F0; auto.
    split; auto. split; auto. split; [lia|]. split.
    { split; [discriminate|]. intros HK. contradiction. }
    split; [|split; auto; tauto]. unfold hash_get. now rewrite F.
Qed.

Lemma unset_other : forall t k t' b k', inv t -> P k -> P k' -> k' <> k -> hash_unset kd k t = Some (t', b) ->
  hash_get kd k' t' = hash_get kd k' t.
Proof.
  intros t k t' b k' I Pk Pk' Hne H.
  destruct (unset_ok t k I Pk) as (t2 & b2 & E & I2 & _ & _ & _ & _ & HO). rewrite E in H. injection H as -> ->.
  apply get_ext; auto. intros v. split; intros (e & A & B & C); exists e; rewrite ?HO in *; auto; try congruence.
Qed.

(** ** Histories *)
Lemma run_inv : forall ops t t', Forall (fun o => P (op_key o)) ops -> inv t ->
  hrun kd ops t = Some t' -> inv t'.
Proof.
  induction ops as [|o ops IH]; simpl; intros t t' HF I H; [injection H as <-; auto|].
  inversion HF as [|x l Ho HF' E]; subst.
  destruct (hrun_op kd o t) as [t1|] eqn:E1; [|discriminate]. simpl in H.
  apply (IH t1 t' HF'); [|exact H]. destruct o as [k v|k]; simpl in *.
  - eapply set_inv; eauto.
  - destruct (unset_ok t k I Ho) as (t2 & b & E2 & I2 & _). rewrite E2 in E1. simpl in E1. congruence.
Qed.

Lemma run_get : forall dec ops t t' k, Forall (fun o => P (op_key o)) ops -> inv t -> P k ->
  hrun kd ops t = Some t' -> hash_get kd k t' = binding dec ops k (hash_get kd k t).
Proof.
  intros dec. induction ops as [|o ops IH]; simpl; intros t t' k HF I Pk H; [congruence|].
  inversion HF as [|x l Ho HF' E]; subst.
  destruct (hrun_op kd o t) as [t1|] eqn:E1; [|discriminate]. simpl in H.
  assert (I1 : inv t1).
  { eapply run_inv with (ops := [o]) (t := t); auto. simpl. rewrite E1. auto. }
  rewrite (IH t1 t' k) by auto.
  destruct o as [k0 v|k0]; simpl in *.
  - destruct (dec k0 k) as [->|Hne].
    + rewrite (get_set_same t k v t1) by auto. auto.
    + rewrite (get_set_other t k0 v t1 k) by auto. auto.
  - destruct (hash_unset kd k0 t) as [[t2 b]|] eqn:E2; [|discriminate]. simpl in E1. injection E1 as ->.
    destruct (dec k0 k) as [->|Hne].
    + destruct (unset_ok t k I Ho) as (t3 & b3 & E3 & _ & _ & _ & G3 & _). rewrite E2 in E3.
      injection E3 as -> ->. now rewrite G3.
    + rewrite (unset_other t k0 t1 b k) by auto. auto.
Qed.

Lemma set_full : forall t k v t', inv t -> P k -> hash_set kd k v t = Some t' ->
  Forall (fun e => hdata e <> None) (ents t) -> Forall (fun e => hdata e <> None) (ents t') /\
  hnumEntries t' <= hnumEntries t + 1.
Proof.
  intros t k v t' I Pk H HF. unfold hash_set in H.
  destruct (hash_entry_new kd k t) as [[[e nw] t1]|] eqn:F; [|discriminate]. simpl in H.
  injection H as <-. destruct (entry_new_ok _ _ _ _ _ I Pk F) as (I1 & A & B & C).
  split.
  - rewrite ents_value_set. rewrite Forall_forall in *. intros x Hx. apply in_map_iff in Hx.
    destruct Hx as (y & <- & Hy). unfold setv. destruct (Nat.eqb (hptr y) (hptr e)) eqn:E; [simpl; discriminate|].
    apply HF. destruct nw.
    + destruct C as (_ & C1 & _). eapply Permutation_in in Hy; [|exact C1].
      destruct Hy as [<-|Hy]; auto. rewrite Nat.eqb_refl in E. discriminate.
    + destruct C as [-> _]. auto.
  - simpl. destruct nw; [|destruct C as [-> _]; lia]. destruct C as (_ & _ & _ & _ & C & _). lia.
Qed.

Fixpoint count_sets (ops : list (op K V)) : Z :=
  match ops with [] => 0 | OpSet _ _ :: r => 1 + count_sets r | OpUnset _ :: r => count_sets r end.

Lemma run_full : forall ops t t', Forall (fun o => P (op_key o)) ops -> inv t ->
  Forall (fun e => hdata e <> None) (ents t) -> hrun kd ops t = Some t' ->
  Forall (fun e => hdata e <> None) (ents t').
Proof.
  induction ops as [|o ops IH]; simpl; intros t t' HF I HD H; [congruence|].
  inversion HF as [|x l Ho HF' E]; subst.
  destruct (hrun_op kd o t) as [t1|] eqn:E1; [|discriminate]. simpl in H.
  assert (I1 : inv t1).
  { eapply run_inv with (ops := [o]) (t := t); auto. simpl. rewrite E1. auto. }
  eapply IH; [auto|exact I1| |exact H].
  destruct o as [k v|k]; simpl in *.
  - apply (set_full t k v t1); auto.
  - destruct (unset_ok t k I Ho) as (t2 & b & E2 & _ & _ & _ & _ & NK & HO). rewrite E2 in E1. simpl in E1.
    injection E1 as ->. rewrite Forall_forall in *. intros e He. apply HD. apply HO; auto.
    intros Hk. apply NK. rewrite <- Hk. now apply in_map.
Qed.

Lemma run_fails : forall ops t, Forall (fun o => P (op_key o)) ops -> inv t ->
  hrun kd ops t = None -> 805306368 <= hnumEntries t + count_sets ops.
Proof.
  assert (CN : forall ops, 0 <= count_sets ops).
  { induction ops as [|[k v|k] ops IH]; cbn [count_sets]; lia. }
  induction ops as [|o ops IH]; cbn [hrun]; intros t HF I H; [discriminate|].
  inversion HF as [|x l Ho HF' E]; subst.
  destruct (hrun_op kd o t) as [t1|] eqn:E1; cbn [obind] in H.
  - assert (I1 : inv t1).
    { eapply run_inv with (ops := [o]) (t := t); auto. simpl. rewrite E1. auto. }
    specialize (IH t1 HF' I1 H). destruct o as [k v|k]; cbn [op_key hrun_op count_sets] in *.
    + unfold hash_set in E1. destruct (hash_entry_new kd k t) as [[[e nw] t2]|] eqn:F; [|discriminate].
      cbn [obind] in E1. injection E1 as <-. cbn [value_set hnumEntries] in IH.
      destruct (entry_new_ok _ _ _ _ _ I Ho F) as (_ & _ & _ & C).
      destruct nw; [|destruct C as [-> _]; lia]. destruct C as (_ & _ & _ & _ & C & _). lia.
    + destruct (unset_ok t k I Ho) as (t2 & b & E2 & _ & HN & _). rewrite E2 in E1. cbn [obind] in E1.
      injection E1 as ->. lia.
  - destruct o as [k v|k]; cbn [op_key hrun_op count_sets] in *.
    + unfold hash_set in E1. destruct (hash_entry_new kd k t) as [[[e nw] t2]|] eqn:F; [discriminate|].
      pose proof (entry_new_fails t k I Ho F). specialize (CN ops). lia.
    + destruct (unset_ok t k I Ho) as (t2 & b & E2 & _). rewrite E2 in E1. discriminate.
Qed.

(** ** Walking *)
(** What is left to visit from search state s *)
Definition todo (t : tbl) (s : hsearch) : option (list entry) :=
  match nextEntry s with
  | None => Some (concat (skipn (nextIndex s) (buckets t)))
  | Some p => match deref p (buckets t) with
              | Some c => Some (c ++ concat (skipn (nextIndex s) (buckets t)))
              | None => None end
  end.

(** The chain being visited is the tail of the last bucket taken. *)
Definition at_state (t : tbl) (s : hsearch) (c : list entry) : Prop :=
  head_ptr c = nextEntry s /\
  (c = [] \/ exists pre, (0 < nextIndex s <= length (buckets t))%nat /\
             nth (pred (nextIndex s)) (buckets t) [] = pre ++ c).

Lemma chain_from_app : forall (pre c : list entry) e, NoDup (map hptr (pre ++ e :: c)) ->
  chain_from (hptr e) (pre ++ e :: c) = Some (e :: c).
Proof.
  induction pre as [|x pre IH]; intros c e H; simpl in *.
  - now rewrite Nat.eqb_refl.
  - inversion H; subst. destruct (Nat.eqb (hptr x) (hptr e)) eqn:E; [|auto].
    apply Nat.eqb_eq in E. exfalso. apply H2. rewrite E, map_app, in_app_iff. right. left. auto.
Qed.
Lemma chain_from_none : forall p (l : list entry), ~ In p (map hptr l) -> chain_from p l = None.
Proof.
  induction l as [|x l IH]; simpl; intros H; auto.
  destruct (Nat.eqb (hptr x) p) eqn:E; [apply Nat.eqb_eq in E; tauto|]. apply IH; tauto.
Qed.
Lemma deref_ok : forall bs i pre (e : entry) c, NoDup (map hptr (concat bs)) -> (i < length bs)%nat ->
  nth i bs [] = pre ++ e :: c -> deref (hptr e) bs = Some (e :: c).
Proof.
  induction bs as [|b bs IH]; intros [|i] pre e c HN HI HE; simpl in *; try lia.
  - subst b. rewrite map_app in HN. rewrite chain_from_app; auto. eapply nodup_app_l; eauto.
  - rewrite chain_from_none.
    + eapply IH; eauto; [|lia]. rewrite map_app in HN. eapply nodup_app_r; eauto.
    + intros J. rewrite map_app in HN.
      assert (In (hptr e) (map hptr (concat bs))).
      { apply in_map. eapply in_concat_nth'. rewrite HE. rewrite in_app_iff. right; left; auto. }
      revert HN J H. generalize (map hptr b) (map hptr (concat bs)). intros l1 l2 HN J H.
      induction l1; simpl in *; [tauto|]. inversion HN; subst. destruct J as [->|J].
      * apply H2. rewrite in_app_iff; auto.
      * auto.
Qed.
Lemma scan_ok : forall (bs : list (list entry)) i r n, scan bs i = (r, n) ->
  match r with
  | None => concat bs = []
  | Some (e, c) => exists m, n = S (i + m) /\ (m < length bs)%nat /\ nth m bs [] = e :: c /\
                             concat bs = e :: c ++ concat (skipn (S m) bs)
  end.
Proof.
  induction bs as [|[|e c] bs IH]; simpl; intros i r n H.
  - injection H as <- <-. auto.
  - apply IH in H. destruct r as [[e c]|]; auto. destruct H as (m & A & B & C & D).
    exists (S m). repeat split; try lia; auto.
  - injection H as <- <-. exists 0%nat. repeat split; try lia; auto.
Qed.
Lemma nth_skipn : forall A n m (l : list A) d, nth m (skipn n l) d = nth (n + m) l d.
Proof. induction n; intros m [|x l] d; simpl; auto. now destruct m. Qed.
Lemma skipn_skipn' : forall A n m (l : list A), skipn m (skipn n l) = skipn (n + m) l.
Proof. induction n; intros m l; simpl; auto. destruct l; simpl; auto. now destruct m. Qed.
Lemma skipn_length' : forall A n (l : list A), length (skipn n l) = (length l - n)%nat.
Proof. induction n; intros [|x l]; simpl; auto. Qed.
Lemma skipn_upd : forall A i n (f : A -> A) l, (i < n)%nat -> skipn n (upd i f l) = skipn n l.
Proof. induction i; intros [|n] f [|x l] H; simpl; try lia; auto. apply IHi; lia. Qed.

Lemma next_ok : forall t s c, inv t -> at_state t s c ->
  let rest := c ++ concat (skipn (nextIndex s) (buckets t)) in
  match hash_next t s with
  | HCrash => False
  | HEnd => rest = []
  | HEntry e s' => exists c', at_state t s' c' /\
       rest = e :: c' ++ concat (skipn (nextIndex s') (buckets t)) /\ In e (ents t) /\
       exists pre, (0 < nextIndex s' <= length (buckets t))%nat /\ nth (pred (nextIndex s')) (buckets t) [] = pre ++ e :: c'
  end.
Proof.
  intros t s c I [H1 H2]. unfold hash_next. destruct c as [|e c]; simpl in H1; rewrite <- H1.
  - destruct (scan (skipn (nextIndex s) (buckets t)) (nextIndex s)) as [r n] eqn:E.
    apply scan_ok in E. destruct r as [[e c]|]; simpl; [|auto].
    destruct E as (m & -> & B & C & D). rewrite nth_skipn in C. rewrite skipn_skipn' in D.
    rewrite skipn_length' in B.
    exists c. split; [|split; [|split]].
    + split; [reflexivity|]. right. exists [e]. cbn [nextIndex]. split; [lia|]. cbn [pred]. exact C.
    + cbn [nextIndex]. rewrite D. do 3 f_equal. f_equal. lia.
    + eapply in_concat_nth'. rewrite C. left; auto.
    + exists []. cbn [nextIndex]. split; [lia|]. exact C.
  - destruct H2 as [H2|(pre & H2 & H3)]; [discriminate|].
    rewrite (deref_ok (buckets t) (pred (nextIndex s)) pre e c); auto; [|apply (iv_ptrs _ I)|lia].
    exists c. split; [|split; [|split]].
    + split; [reflexivity|]. right. exists (pre ++ [e]). cbn [nextIndex]. rewrite <- app_assoc. auto.
    + reflexivity.
    + eapply in_concat_nth'. rewrite H3, in_app_iff. right; left; auto.
    + exists pre. auto.
Qed.

Lemma app_inj_nodup : forall (e : entry) l1 l2 l1' l2', NoDup (map hptr (l1 ++ e :: l2)) ->
  l1 ++ e :: l2 = l1' ++ e :: l2' -> l1 = l1' /\ l2 = l2'.
Proof.
  induction l1 as [|x l1 IH]; intros l2 [|x' l1'] l2' HN E; simpl in *.
  - injection E as ->; auto.
  - injection E as <- E. exfalso. inversion HN; subst. apply H1. rewrite in_map_iff. exists e.
    split; auto. rewrite in_app_iff; right; left; auto.
  - injection E as -> E. exfalso. inversion HN; subst. apply H1. rewrite in_map_iff. exists e.
    split; auto. rewrite in_app_iff; right; left; auto.
  - injection E as <- E. inversion HN; subst. destruct (IH l2 l1' l2' H2 E) as [-> ->]. auto.
Qed.

Lemma walk_ok : forall del n t s c, inv t -> at_state t s c ->
  length (c ++ concat (skipn (nextIndex s) (buckets t))) = n ->
  forall fuel, (n < fuel)%nat ->
  exists t', hash_walk kd fuel del t s = Some (c ++ concat (skipn (nextIndex s) (buckets t)), t') /\ inv t' /\
    Permutation (ents t) (filter del (c ++ concat (skipn (nextIndex s) (buckets t))) ++ ents t').
Proof.
  intros del. induction n as [|n IH]; intros t s c I A HL fuel HF; (destruct fuel as [|fuel]; [lia|]); cbn [hash_walk];
    pose proof (next_ok t s c I A) as HN; cbv zeta in HN; destruct (hash_next t s) as [|e s'|]; try contradiction.
  - rewrite HN. exists t. split; [reflexivity|split; [auto|reflexivity]].
  - destruct HN as (c' & _ & E & _). rewrite E in HL. discriminate.
  - rewrite HN in HL. discriminate.
  - destruct HN as (c' & A' & E & He & pre & HI & HE). rewrite E in HL. simpl in HL. injection HL as HL.
    rewrite E. cbn [filter]. destruct (del e) eqn:ED.
    + destruct (delete_ok t e I He) as (t1 & D1 & I1 & PE & _ & _ & i & l1 & l2 & Hi & Hn & Hb).
      rewrite D1. cbn [obind].
      (* e sits in only one bucket *)
      assert (HI2 : i = pred (nextIndex s')).
      { destruct (iv_place _ I i e) as (_ & _ & X); [rewrite Hn; apply in_or_app; right; left; auto|].
        destruct (iv_place _ I (pred (nextIndex s')) e) as (_ & _ & Y); [rewrite HE; apply in_or_app; right; left; auto|].
        congruence. }
      rewrite HI2, HE in Hn.
      destruct (app_inj_nodup e pre c' l1 l2) as [<- <-]; auto.
      { rewrite <- HE. apply NoDup_nth_map. apply (iv_ptrs _ I). }
      assert (ES : skipn (nextIndex s') (buckets t1) = skipn (nextIndex s') (buckets t)).
      { rewrite Hb. apply skipn_upd. lia. }
      assert (A1 : at_state t1 s' c').
      { destruct A' as [A'1 A'2]. split; auto. right. exists pre. rewrite Hb, upd_length. split; auto.
        rewrite <- HI2. rewrite nth_upd_eq by auto. auto. }
      destruct (IH t1 s' c' I1 A1) with (fuel := fuel) as (t' & W & I' & PE'); [rewrite ES; auto|lia|].
      rewrite ES in *. rewrite W. cbn [obind]. exists t'. split; auto. split; auto.
      rewrite PE. simpl. apply perm_skip. exact PE'.
    + cbn [obind]. destruct (IH t s' c' I A') with (fuel := fuel) as (t' & W & I' & PE'); [auto|lia|].
      rewrite W. cbn [obind]. exists t'. auto.
Qed.

(** ** Interning *)
Lemma key_add_ok : forall t k p t', inv t -> P k -> key_add kd k t = Some (p, t') ->
  inv t' /\ (exists e, In e (ents t') /\ hkey e = k /\ hptr e = p) /\
  (forall e, In e (ents t) -> In e (ents t')).
Proof.
  intros t k p t' I Pk H. unfold key_add in H.
  destruct (hash_entry_new kd k t) as [[[e nw] t1]|] eqn:F; [|discriminate]. simpl in H. injection H as <- <-.
  destruct (entry_new_ok _ _ _ _ _ I Pk F) as (I1 & A & B & C). split; auto. split; [exists e; auto|].
  destruct nw.
  - destruct C as (_ & C & _). intros x Hx. eapply Permutation_in; [symmetry; exact C|right; auto].
  - destruct C as [-> _]. auto.
Qed.

Lemma key_adds_ok : forall ks t ps t', inv t -> Forall P ks -> key_adds kd ks t = Some (ps, t') ->
  inv t' /\ (forall e, In e (ents t) -> In e (ents t')) /\
  Forall2 (fun k p => exists e, In e (ents t') /\ hkey e = k /\ hptr e = p) ks ps.
Proof.
  induction ks as [|k ks IH]; simpl; intros t ps t' I HF H.
  - injection H as <- <-. auto.
  - inversion HF as [|x l Pk HF' E]; subst.
    destruct (key_add kd k t) as [[p t1]|] eqn:F; [|discriminate]. cbn [obind] in H.
    destruct (key_adds kd ks t1) as [[ps1 t2]|] eqn:F2; [|discriminate]. cbn [obind] in H. injection H as <- <-.
    destruct (key_add_ok _ _ _ _ I Pk F) as (I1 & (e & A & B & C) & D).
    destruct (IH _ _ _ I1 HF' F2) as (I2 & D2 & F3).
    split; auto. split; auto. constructor; auto. exists e; auto.
Qed.
End P.
