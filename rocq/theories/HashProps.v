(** Properties C04, C05, C45: hash tables. *)
From Coq Require Import ZArith List Bool Lia Permutation.
Import ListNotations.
From Verif Require Import TreeModel TreeSpec TreeProps HashModel HashSpec HashProofs.
Local Open Scope Z_scope.

(** * The key types *)
Lemma land_mask_range : forall x n, 0 <= n -> 0 <= Z.land x (2 ^ n - 1) < 2 ^ n.
Proof.
  intros x n Hn. replace (2 ^ n - 1) with (Z.ones n) by (rewrite Z.ones_equiv; lia).
  rewrite Z.land_ones by auto. apply Z.mod_pos_bound. apply Z.pow_pos_nonneg; lia.
Qed.
Lemma bytes_eqb_eq : forall a b, bytes_eqb a b = true <-> a = b.
Proof.
  induction a as [|x a IH]; intros [|y b]; simpl; split; intros H; try discriminate; auto.
  - apply andb_prop in H. destruct H as [H1 H2]. apply Z.eqb_eq in H1. apply IH in H2. congruence.
  - injection H as -> ->. rewrite Z.eqb_refl. simpl. now apply IH.
Qed.
Lemma good_supported : forall K P kd, supported K P kd -> good_kind P kd.
Proof.
  intros K P kd S. destruct S; constructor; simpl; intros; auto; try (apply land_mask_range; auto).
  - rewrite Bool.andb_true_iff, bytes_eqb_eq. split; [tauto|]. intros ->. now rewrite Z.eqb_refl.
  - rewrite Z.eqb_eq. split; congruence.
  - rewrite Bool.andb_true_iff, !Z.eqb_eq, (cmp_eq _ _ (memcmp_total_order n)) by auto.
    split; [intros [_ ->]; auto|intros ->; auto].
Qed.

Lemma nodup_app_disjoint : forall A (l1 l2 : list A), NoDup (l1 ++ l2) -> forall x, In x l1 -> In x l2 -> False.
Proof.
  induction l1 as [|y l1 IH]; simpl; intros l2 ND x H1 H2; [tauto|].
  inversion ND as [|z l Hn Hd Eq]; subst. destruct H1 as [->|H1]; [|eauto].
  apply Hn. apply in_or_app; auto.
Qed.

Lemma count_assign : forall K V (ops : list (op K V)), count_sets ops = assignments ops.
Proof. induction ops as [|[k v|k] ops IH]; simpl; auto. now rewrite IH. Qed.

(** * C04: hash tables are maps *)
Theorem hash_is_map : forall K V P kd (dec : forall a b : K, {a = b} + {a <> b}),
  supported K P kd ->
  forall (ops : list (op K V)) t, Forall (fun o => P (op_key o)) ops ->
  hrun kd ops hash_new = Some t ->
  forall k, P k ->
    hash_get kd k t = binding dec ops k None /\
    (hash_find kd k t = None <-> binding dec ops k None = None).
Proof.
  intros K V P kd dec S ops t HF HR k Pk. pose proof (good_supported _ _ _ S) as G.
  assert (I : inv P kd t) by (eapply run_inv; eauto; apply inv_new).
  assert (HG : hash_get kd k t = binding dec ops k None).
  { rewrite (run_get P kd G dec ops hash_new t k) by (auto; apply inv_new). f_equal.
    destruct (hash_get kd k hash_new) as [v|] eqn:E0; auto.
    apply (get_spec P kd G) in E0; [|apply inv_new|auto]. destruct E0 as (e & [] & _). }
  split; auto. rewrite <- HG. unfold hash_get.
  destruct (hash_find kd k t) as [e|] eqn:F; [|tauto].
  apply (find_spec P kd G) in F; auto. destruct F as [F1 _].
  assert (HD : Forall (fun e => hdata e <> None) (ents t)).
  { eapply (run_full P kd G ops hash_new); eauto; [apply inv_new|constructor]. }
  rewrite Forall_forall in HD. split; [discriminate|]. intros J. exfalso. exact (HD e F1 J).
Qed.

(** The table never fails below the point where its int size fields overflow. *)
Theorem hash_never_fails : forall K V P kd, supported K P kd ->
  forall (ops : list (op K V)), Forall (fun o => P (op_key o)) ops ->
  assignments ops < 805306368 -> exists t, hrun kd ops hash_new = Some t.
Proof.
  intros K V P kd S ops HF HA. pose proof (good_supported _ _ _ S) as G.
  destruct (hrun kd ops hash_new) as [t|] eqn:E0; [eauto|].
  pose proof (run_fails P kd G ops hash_new HF (inv_new P kd) E0) as H.
  rewrite count_assign in H. simpl in H. lia.
Qed.

(** Deleting reports whether the key was there. *)
Theorem hash_unset_reports_presence : forall K V P kd, supported K P kd ->
  forall (ops : list (op K V)) t, Forall (fun o => P (op_key o)) ops -> hrun kd ops hash_new = Some t ->
  forall k, P k -> exists t' b, hash_unset kd k t = Some (t', b) /\
    (b = true <-> hash_get kd k t <> None) /\ hash_size t' = hash_size t - (if b then 1 else 0).
Proof.
  intros K V P kd S ops t HF HR k Pk. pose proof (good_supported _ _ _ S) as G.
  assert (I : inv P kd t) by (eapply run_inv; eauto; apply inv_new).
  assert (HD : Forall (fun e => hdata e <> None) (ents t)).
  { eapply (run_full P kd G ops hash_new); eauto; [apply inv_new|constructor]. }
  rewrite Forall_forall in HD. unfold hash_unset, hash_get.
  destruct (hash_find kd k t) as [e|] eqn:F.
  - apply (find_spec P kd G) in F; auto. destruct F as [F1 F2].
    destruct (delete_ok P kd G t e I F1) as (t' & E1 & _ & _ & HN & _).
    rewrite E1. simpl. exists t', true. unfold hash_size. repeat split; auto.
  - exists t, false. unfold hash_size. repeat split; auto; try lia; try discriminate; try congruence.
Qed.

(** * C05: iteration *)
Theorem hash_walk_visits_each_once : forall K V P kd (dec : forall a b : K, {a = b} + {a <> b}),
  supported K P kd ->
  forall (ops : list (op K V)) t, Forall (fun o => P (op_key o)) ops ->
  hrun kd ops hash_new = Some t ->
  forall (del : hentry K V -> bool) fuel, hash_size t < Z.of_nat fuel ->
  exists l t', hash_walk kd fuel del t hash_first_state = Some (l, t') /\
    NoDup (map hkey l) /\ Z.of_nat (length l) = hash_size t /\
    (forall e, In e l -> P (hkey e) /\ hash_get kd (hkey e) t = hdata e /\ hdata e <> None) /\
    (forall k v, P k -> hash_get kd k t = Some v -> exists e, In e l /\ hkey e = k) /\
    (* deletions during the walk took effect, and nothing else did *)
    (forall e, In e l -> hash_get kd (hkey e) t' = if del e then None else hash_get kd (hkey e) t) /\
    (forall k, P k -> hash_get kd k t = None -> hash_get kd k t' = None) /\
    hash_size t' = hash_size t - Z.of_nat (length (filter del l)).
Proof.
  intros K V P kd dec S ops t HF HR del fuel HL. pose proof (good_supported _ _ _ S) as G.
  assert (I : inv P kd t) by (eapply run_inv; eauto; apply inv_new).
  assert (HD : Forall (fun e => hdata e <> None) (ents t)).
  { eapply (run_full P kd G ops hash_new); eauto; [apply inv_new|constructor]. }
  rewrite Forall_forall in HD. unfold hash_size in *.
  assert (A : at_state t hash_first_state []) by (split; auto).
  destruct (walk_ok P kd G del _ t hash_first_state [] I A eq_refl fuel) as (t' & W & I' & PE).
  { simpl. fold (ents t). rewrite (iv_num _ _ _ I) in HL. lia. }
  simpl in W, PE. fold (ents t) in W, PE.
  exists (ents t), t'. split; auto.
  pose proof (iv_keys _ _ _ I) as HK.
  assert (GET : forall e, In e (ents t) -> P (hkey e) /\ hash_get kd (hkey e) t = hdata e).
  { intros e He. destruct (ent_placed P kd t e I He) as (Pe & _). split; auto.
    destruct (hdata e) as [v|] eqn:Ed; [|destruct (HD e He Ed)].
    apply (get_spec P kd G); auto. exists e; auto. }
  split; auto. split; [symmetry; apply (iv_num _ _ _ I)|].
  split; [intros e He; destruct (GET e He); auto|].
  split.
  { intros k v Pk Hg. apply (get_spec P kd G) in Hg; auto. destruct Hg as (e & E1 & E2 & _). eauto. }
  assert (HK2 : NoDup (map hkey (filter del (ents t) ++ ents t'))).
  { eapply Permutation_NoDup; [|exact HK]. apply Permutation_map. exact PE. }
  split; [|split].
  - intros e He. destruct (GET e He) as [Pe Ge].
    pose proof He as He2. eapply Permutation_in in He2; [|exact PE].
    destruct (del e) eqn:ED.
    + destruct (hash_get kd (hkey e) t') as [v|] eqn:E1; auto. exfalso.
      apply (get_spec P kd G) in E1; auto. destruct E1 as (x & X1 & X2 & _).
      assert (X : In x (ents t)) by (eapply Permutation_in; [symmetry; exact PE|apply in_or_app; auto]).
      assert (x = e) by (eapply NoDup_map_inj with (f := hkey); [exact HK|exact X|exact He|exact X2]). subst x.
      assert (Fe : In e (filter del (ents t))) by (apply filter_In; auto).
      rewrite map_app in HK2. eapply (nodup_app_disjoint _ _ _ HK2); [exact (in_map hkey _ _ Fe)|exact (in_map hkey _ _ X1)].
    + apply in_app_or in He2. destruct He2 as [He2|He2].
      * apply filter_In in He2. destruct He2; congruence.
      * destruct (hdata e) as [v|] eqn:Ed; [|destruct (HD e He Ed)]. rewrite Ge.
        apply (get_spec P kd G); auto. exists e; auto.
  - intros k Pk Hg. destruct (hash_get kd k t') as [v|] eqn:E1; auto. exfalso.
    apply (get_spec P kd G) in E1; auto. destruct E1 as (x & X1 & X2 & X3).
    assert (X : In x (ents t)) by (eapply Permutation_in; [symmetry; exact PE|apply in_or_app; auto]).
    assert (hash_get kd k t = Some v) by (apply (get_spec P kd G); eauto). congruence.
  - rewrite (iv_num _ _ _ I), (iv_num _ _ _ I'), (Permutation_length PE), app_length. lia.
Qed.

(** * C45: interned keys *)
Theorem interning_is_injective : forall ks ps t, Forall cstring ks ->
  key_adds (V := Z) string_kind ks hash_new = Some (ps, t) ->
  length ps = length ks /\
  (forall i j a b p q, nth_error ks i = Some a -> nth_error ks j = Some b ->
     nth_error ps i = Some p -> nth_error ps j = Some q -> (a = b <-> p = q)) /\
  (forall i a p, nth_error ks i = Some a -> nth_error ps i = Some p -> key_lookup string_kind a t = Some p) /\
  (forall a, cstring a -> ~ In a ks -> key_lookup string_kind a t = None).
Proof.
  intros ks ps t HF H. pose proof (good_supported _ _ _ sup_string) as G.
  destruct (key_adds_ok cstring string_kind G ks hash_new ps t (inv_new _ _) HF H) as (I & _ & F2).
  assert (HL : length ps = length ks).
  { clear -F2. induction F2; simpl; auto. }
  assert (N : forall i a p, nth_error ks i = Some a -> nth_error ps i = Some p ->
     exists e, In e (ents t) /\ hkey e = a /\ hptr e = p).
  { clear -F2. intros i; revert ks ps F2. induction i; intros ks ps F2 a p H1 H2; inversion F2; subst; simpl in *; try discriminate.
    - injection H1 as <-. injection H2 as <-. auto.
    - eauto. }
  split; auto. split; [|split].
  - intros i j a b p q A1 B1 A2 B2.
    destruct (N _ _ _ A1 A2) as (e & E1 & E2 & E3). destruct (N _ _ _ B1 B2) as (f & F1 & F3 & F4).
    split; intros X.
    + assert (e = f) by (eapply NoDup_map_inj with (f := hkey); [apply (iv_keys _ _ _ I)|auto|auto|congruence]). congruence.
    + assert (e = f) by (eapply NoDup_map_inj with (f := hptr); [apply (iv_ptrs _ _ _ I)|auto|auto|congruence]). congruence.
  - intros i a p A1 A2. destruct (N _ _ _ A1 A2) as (e & E1 & E2 & E3).
    unfold key_lookup. assert (hash_find string_kind a t = Some e) as ->; [|congruence].
    apply (find_spec cstring string_kind G); auto.
    rewrite Forall_forall in HF. apply HF. eapply nth_error_In; eauto.
  - intros a Ca Hn. unfold key_lookup.
    assert (SUB : forall e, In e (ents t) -> In (hkey e) ks).
    { clear -H HF G. revert H.
      assert (X : forall ks t0 ps t, Forall cstring ks -> inv cstring string_kind t0 ->
        key_adds (V := Z) string_kind ks t0 = Some (ps, t) ->
        forall e, In e (ents t) -> In e (ents t0) \/ In (hkey e) ks).
      { clear. intros ks. pose proof (good_supported _ _ _ sup_string) as G.
        induction ks as [|k ks IH]; simpl; intros t0 ps t HF I H e He.
        - injection H as <- <-. auto.
        - inversion HF as [|x l Pk HF' E0]; subst.
          destruct (key_add string_kind k t0) as [[p t1]|] eqn:F; [|discriminate]. cbn [obind] in H.
          destruct (key_adds string_kind ks t1) as [[ps1 t2]|] eqn:F2; [|discriminate]. cbn [obind] in H. injection H as <- <-.
          destruct (key_add_ok cstring string_kind G _ _ _ _ I Pk F) as (I1 & _ & _).
          destruct (IH _ _ _ HF' I1 F2 e He) as [J|J]; auto.
          unfold key_add in F. destruct (hash_entry_new string_kind k t0) as [[[e0 nw] t3]|] eqn:F0; [|discriminate].
          simpl in F. injection F as <- <-.
          destruct (entry_new_ok cstring string_kind G _ _ _ _ _ I Pk F0) as (_ & _ & B & C).
          destruct nw; [|destruct C as [-> _]; auto]. destruct C as (_ & C & _).
          eapply Permutation_in in J; [|exact C]. destruct J as [<-|J]; auto. }
      intros H e He. destruct (X ks hash_new ps t HF (inv_new _ _) H e He) as [[]|J]; auto. }
    destruct (hash_find string_kind a t) as [e|] eqn:F; auto.
    apply (find_spec cstring string_kind G) in F; auto. destruct F as [F1 F2']. exfalso. apply Hn.
    rewrite <- F2'. auto.
Qed.

(** * What is false *)
Fixpoint setn (n : nat) : list (op Z Z) :=
  match n with O => [] | S m => setn m ++ [OpSet (Z.of_nat m) (Z.of_nat m + 100)] end.

(** Tables with JSI_KEYS_STRINGKEY keys lose entries at the first rebuild ... *)
Theorem stringkey_hash_loses_keys_refuted :
  exists ops t k, Forall (fun o => 0 <= op_key o < 2 ^ 64) ops /\
    hrun stringkey_kind ops hash_new = Some t /\ hash_size t = 48 /\
    binding Z.eq_dec ops k None = Some 101 /\ hash_get stringkey_kind k t = None.
Proof.
  exists (setn 48). eexists. exists 1. split.
  - repeat constructor; simpl; lia.
  - split; [vm_compute; reflexivity|]. repeat split; vm_compute; reflexivity.
Qed.
(** ... and deleting a stored key crashes. *)
Theorem stringkey_hash_delete_crashes_refuted :
  hrun stringkey_kind [OpSet 1 7; OpUnset 1] (hash_new (V := Z)) = None.
Proof. vm_compute. reflexivity. Qed.

(** Deleting during a walk an entry other than the one just returned can leave the walk with
    a dangling pointer. *)
Theorem hash_walk_deleting_other_entry_crashes_refuted :
  exists ops t e s e2 t2, hrun oneword_kind ops (hash_new (V := Z)) = Some t /\
    hash_next t hash_first_state = HEntry e s /\ In e2 (concat (buckets t)) /\ e2 <> e /\
    entry_delete oneword_kind e2 t = Some t2 /\ hash_next t2 s = HCrash.
Proof.
  exists [OpSet 0 5; OpSet 4 6]. do 5 eexists.
  split; [vm_compute; reflexivity|]. split; [vm_compute; reflexivity|].
  split; [vm_compute; right; left; reflexivity|]. split; [discriminate|].
  split; vm_compute; reflexivity.
Qed.

(** Clearing a table leaves its size unchanged although every key is gone. *)
Theorem hash_clear_keeps_size_refuted :
  exists t t', hrun oneword_kind [OpSet 1 7] (hash_new (V := Z)) = Some t /\ hash_clear t = Some t' /\
    hash_get oneword_kind 1 t' = None /\ hash_size t' = 1 /\
    hash_walk oneword_kind 5 (fun _ => false) t' hash_first_state = Some ([], t').
Proof.
  do 2 eexists. split; [vm_compute; reflexivity|]. split; [vm_compute; reflexivity|].
  repeat split; vm_compute; reflexivity.
Qed.

(** * Non-vacuity *)
Example hash_history : list (op (list Z) Z) :=
  [OpSet [97] 1; OpSet [98] 2; OpSet [97] 3; OpUnset [98]; OpSet [99; 100] 4; OpSet [] 9].
Example hash_history_ok : Forall (fun o => cstring (op_key o)) hash_history /\
  exists t, hrun string_kind hash_history hash_new = Some t /\ hash_get string_kind [97] t = Some 3 /\
    hash_get string_kind [98] t = None /\ hash_size t = 3.
Proof.
  split; [repeat constructor|]. eexists; split; [vm_compute; reflexivity|]. repeat split; vm_compute; reflexivity.
Qed.
(** A history with rebuilds, then a walk that deletes the even keys. *)
Example hash_big : exists t l t', hrun oneword_kind (setn 200) hash_new = Some t /\ numBuckets t = 256 /\
  hash_walk oneword_kind 300 (fun e => Z.even (hkey e)) t hash_first_state = Some (l, t') /\
  length l = 200%nat /\ hash_size t' = 100.
Proof. do 3 eexists. split; [vm_compute; reflexivity|]. split; [vm_compute; reflexivity|]. split; [vm_compute; reflexivity|]. split; vm_compute; reflexivity. Qed.
Example struct_history : exists t, hrun struct_kind [OpSet [1;2;3;4] 5; OpSet [4;3;2;1] 6] hash_new = Some t /\
  hash_get struct_kind [1;2;3;4] t = Some 5.
Proof. eexists; split; vm_compute; reflexivity. Qed.
Example intern_example : exists ps t, key_adds (V := Z) string_kind [[97]; [98]; [97]] hash_new = Some (ps, t) /\ ps = [1; 2; 1]%nat.
Proof. do 2 eexists; split; vm_compute; reflexivity. Qed.

Print Assumptions hash_is_map.
Print Assumptions hash_never_fails.
Print Assumptions hash_walk_visits_each_once.
Print Assumptions interning_is_injective.
