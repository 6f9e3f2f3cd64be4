(** Array operations: owned slots, splice, fill, a[n]=v, histories. *)
From Coq Require Import ZArith List Bool Lia Permutation.
From Verif Require Import Bits ArrayModel ArraySpec ArrayProofs.
Import ListNotations.
Local Open Scope nat_scope.

Lemma ptrs_app : forall a b, ptrs (a ++ b) = ptrs a ++ ptrs b.
Proof. intros. unfold ptrs. apply flat_map_app. Qed.
Lemma ptrs_repeat : forall k, ptrs (repeat None k) = [].
Proof. induction k; cbn; auto. Qed.
Lemma ptrs_some : forall ps, ptrs (map Some ps) = ps.
Proof. induction ps; cbn; f_equal; auto. Qed.
Lemma ptrs_rev : forall es, Permutation (ptrs (rev es)) (ptrs es).
Proof.
  induction es as [|e es IH]; cbn [rev]; [constructor|]. rewrite ptrs_app, Permutation_app_comm. cbn [ptrs flat_map]. rewrite app_nil_r.
  apply Permutation_app_head. exact IH.
Qed.
Lemma in_ptrs : forall es p, In p (ptrs es) <-> In (Some p) es.
Proof.
  intros. unfold ptrs. rewrite in_flat_map. split.
  - intros ([q|] & A & B); cbn in B; [destruct B as [->|[]]; auto|destruct B].
  - intros A. exists (Some p). cbn. auto.
Qed.

Section P.
Variable C : Type.
Variable u : C.
Implicit Types h : list C.

Lemma view_app : forall h a b, view u h (a ++ b) = view u h a ++ view u h b.
Proof. intros. unfold view. apply map_app. Qed.
Lemma view_len : forall h a, length (view u h a) = length a.
Proof. intros. unfold view. apply map_length. Qed.
Lemma view_ext : forall h h' es, (forall p, In p (ptrs es) -> nth p h u = nth p h' u) -> view u h es = view u h' es.
Proof.
  intros h h' es H. unfold view. apply map_ext_in. intros [p|] Hp; cbn; auto. f_equal. apply H. apply in_ptrs; auto.
Qed.
Lemma view_grow : forall h x es, Forall (fun p => p < length h) (ptrs es) -> view u (h ++ x) es = view u h es.
Proof. intros. apply view_ext. intros p Hp. rewrite Forall_forall in H. rewrite app_nth1; auto. Qed.
Lemma view_repeat : forall h k, view u h (repeat None k) = repeat None k.
Proof. induction k; cbn; f_equal; auto. Qed.
Lemma view_new : forall h x y, view u (h ++ x ++ y) (map Some (seq (length h) (length x))) = map Some x.
Proof.
  intros h x. revert h. induction x as [|c x IH]; intros h y; [reflexivity|]. cbn [length seq map view option_map].
  f_equal.
  - f_equal. rewrite app_nth2 by lia. rewrite Nat.sub_diag. reflexivity.
  - specialize (IH (h ++ [c]) y). rewrite app_length, Nat.add_1_r in IH. rewrite <- app_assoc in IH. exact IH.
Qed.

Lemma Forall_grow : forall h x ps, Forall (fun p => p < length h) ps -> Forall (fun p => p < length (h ++ x)) ps.
Proof. intros h x ps H. eapply Forall_impl; [|exact H]. cbv beta. intros. rewrite app_length. lia. Qed.
Lemma owned_grow : forall h x es, owned h es -> owned (h ++ x) es.
Proof. intros h x es (A & B). split; auto. apply Forall_grow; auto. Qed.
Lemma owned_perm : forall h es es', Permutation (ptrs es') (ptrs es) -> owned h es -> owned h es'.
Proof.
  intros h es es' P (A & B). split; [eapply Permutation_NoDup; [apply Permutation_sym; exact P|auto]|].
  rewrite Forall_forall in *. intros p Hp. apply B. eapply Permutation_in; eauto.
Qed.
Lemma NoDup_app_iff : forall (A : Type) (a b : list A), NoDup (a ++ b) <-> NoDup a /\ NoDup b /\ (forall x, In x a -> In x b -> False).
Proof.
  induction a as [|x a IH]; intros b; cbn [app]; split.
  - intros; repeat split; auto. constructor.
  - intros (_ & H & _); auto.
  - intros H; inversion H as [|? ? Hn Hr]; subst. apply IH in Hr. destruct Hr as (A1 & B1 & D1).
    split; [constructor; auto; intro; apply Hn, in_or_app; auto|]. split; auto.
    intros y [<-|Hy] Hb; [apply Hn, in_or_app; auto|eauto].
  - intros (H1 & H2 & H3). inversion H1 as [|? ? Hn Hr]; subst. constructor.
    + intro Hi. apply in_app_or in Hi. destruct Hi as [Hi|Hi]; [auto|]. eapply H3; [left; reflexivity|auto].
    + apply IH. repeat split; auto. intros y Hy Hb. eapply H3; [right; exact Hy|auto].
Qed.
Lemma owned_sub : forall h a b c, owned h (a ++ b ++ c) -> owned h (a ++ c).
Proof.
  intros h a b c (A & B). unfold owned. rewrite !ptrs_app in *. rewrite !Forall_app in *. destruct B as (B1 & B2 & B3). split; auto.
  apply NoDup_app_iff in A. destruct A as (A1 & A2 & A3). apply NoDup_app_iff in A2. destruct A2 as (A4 & A5 & A6).
  apply NoDup_app_iff. repeat split; auto. intros x H1 H2. apply (A3 x); auto. apply in_or_app; auto.
Qed.
(** new cells anywhere *)
Lemma owned_insert : forall h x y a b, owned h (a ++ b) -> owned (h ++ x ++ y) (a ++ map Some (seq (length h) (length x)) ++ b).
Proof.
  intros h x y a b (A & B). unfold owned. rewrite !ptrs_app in *. rewrite ptrs_some. split.
  - apply Forall_app in B. destruct B as (B1 & B2). rewrite Forall_forall in *. apply NoDup_app_iff in A. destruct A as (A1 & A2 & A3).
    apply NoDup_app_iff. split; auto. split.
    + apply NoDup_app_iff. split; [apply seq_NoDup|]. split; auto. intros p H1 H2. apply in_seq in H1. specialize (B2 _ H2). lia.
    + intros p H1 H2. apply in_app_or in H2. destruct H2 as [H2|H2]; [|eauto]. apply in_seq in H2. specialize (B1 _ H1). lia.
  - apply Forall_app in B. destruct B as (B1 & B2). apply Forall_app. split; [apply Forall_grow; auto|].
    apply Forall_app. split; [|apply Forall_grow; auto]. apply Forall_forall. intros p Hp. apply in_seq in Hp. rewrite !app_length. lia.
Qed.

Lemma wr_length : forall h p c, p < length h -> length (wr C h p c) = length h.
Proof. intros. unfold wr. rewrite app_length. cbn [length]. rewrite firstn_length_le, skipn_length by lia. lia. Qed.
Lemma wr_same : forall h p c, p < length h -> nth p (wr C h p c) u = c.
Proof.
  intros. unfold wr. rewrite app_nth2; rewrite firstn_length_le by lia; [|lia]. rewrite Nat.sub_diag. reflexivity.
Qed.
Lemma wr_other : forall h p q c, p < length h -> q <> p -> nth q (wr C h p c) u = nth q h u.
Proof.
  intros h p q c H N. unfold wr. rewrite <- (firstn_skipn p h) at 3.
  destruct (Nat.lt_ge_cases q p).
  - rewrite !app_nth1; auto; rewrite firstn_length_le; lia.
  - rewrite !app_nth2; rewrite ?firstn_length_le; try lia.
    replace (q - p) with (S (q - p - 1)) by lia. cbn [nth].
    assert (E : skipn p h = nth p h u :: skipn (S p) h).
    { clear N H0. revert p H. induction h as [|x h IH]; intros p H; [cbn in H; lia|]. destruct p; [reflexivity|]. cbn [skipn nth]. apply IH. cbn in H; lia. }
    rewrite E. reflexivity.
Qed.
End P.

Section Q.
Variable C : Type.
Variable u : C.
Variable M : nat.
Implicit Types h : list C.

(** ** fill *)
Lemma fill_loop_ok : forall k h a vs b val c, length vs = k -> nth val h u = c -> val < length h -> owned h (a ++ vs ++ b) ->
  exists h' vs', fill_loop C u k (length a) val h (a ++ vs ++ b) = Some (h', a ++ vs' ++ b) /\ length vs' = k /\
    length h <= length h' /\ nth val h' u = c /\
    owned h' (a ++ vs' ++ b) /\ view u h' (a ++ vs' ++ b) = view u h a ++ repeat (Some c) k ++ view u h b.
Proof.
  induction k as [|k IH]; intros h a vs b val c L V LV O.
  - destruct vs; [|discriminate]. exists h, []. cbn [fill_loop app repeat length]. repeat split; auto; try apply O. apply view_app.
  - destruct vs as [|v vs]; [discriminate|]. cbn [length] in L. cbn [fill_loop app]. rewrite get_mid.
    destruct v as [p|].
    + assert (Hp : p < length h). { destruct O as (_ & F). rewrite Forall_forall in F. apply F. apply in_ptrs. apply in_or_app. right. left. auto. }
      assert (O2 : owned (wr C h p c) ((a ++ [Some p]) ++ vs ++ b)).
      { destruct O as (O1 & O2). rewrite <- app_assoc. split; auto. rewrite wr_length; auto. }
      destruct (IH (wr C h p c) (a ++ [Some p]) vs b val c) as (h' & vs' & E & L' & LH & V' & O' & W); auto.
      { destruct (Nat.eq_dec val p) as [->|N]; [apply wr_same; auto|rewrite wr_other; auto]. }
      { rewrite wr_length; auto. }
      exists h', (Some p :: vs'). unfold rd. rewrite V.
      replace (S (length a)) with (length (a ++ [Some p])) by (rewrite app_length; cbn; lia).
      replace (a ++ Some p :: vs ++ b) with ((a ++ [Some p]) ++ vs ++ b) by (rewrite <- app_assoc; reflexivity).
      rewrite E. rewrite <- !app_assoc in *. cbn [app] in *. split; auto. split; [cbn; lia|]. rewrite wr_length in LH by auto. split; auto.
      split; auto. split; auto. rewrite W. rewrite view_app. cbn [view map option_map repeat app]. rewrite wr_same by auto.
      rewrite <- !app_assoc. cbn [app].
      assert (X : forall es, ~ In p (ptrs es) -> view u (wr C h p c) es = view u h es).
      { intros es Hn. apply view_ext. intros q Hq. apply wr_other; auto. intro; subst; auto. }
      destruct O as (ND & _). rewrite ptrs_app in ND. cbn [ptrs flat_map app] in ND. fold (ptrs (vs ++ b)) in ND.
      pose proof (NoDup_remove_2 _ _ _ ND) as NI. rewrite ptrs_app in NI.
      f_equal; [apply X; intro; apply NI, in_or_app; auto|]. do 2 f_equal. apply X. intro. apply NI, in_or_app; right; apply in_or_app; auto.
    + cbn [dup]. rewrite put_mid.
      assert (O2 : owned (h ++ [c]) ((a ++ [Some (length h)]) ++ vs ++ b)).
      { pose proof (owned_insert C h [c] [] a (vs ++ b)) as I. cbn [length seq map] in I. rewrite app_nil_r in I. rewrite <- app_assoc. apply I.
        eapply owned_sub with (b := [None]); exact O. }
      destruct (IH (h ++ [c]) (a ++ [Some (length h)]) vs b val c) as (h' & vs' & E & L' & LH & V' & O' & W); auto.
      { rewrite app_nth1; auto. }
      { rewrite app_length; lia. }
      exists h', (Some (length h) :: vs'). unfold rd. rewrite V.
      replace (S (length a)) with (length (a ++ [Some (length h)])) by (rewrite app_length; cbn; lia).
      replace (a ++ Some (length h) :: vs ++ b) with ((a ++ [Some (length h)]) ++ vs ++ b) by (rewrite <- app_assoc; reflexivity).
      rewrite E. rewrite <- !app_assoc in *. cbn [app] in *. split; auto. split; [cbn; lia|]. rewrite app_length in LH. split; [lia|].
      split; auto. split; auto. rewrite W. rewrite view_app. cbn [view map option_map repeat app].
      rewrite app_nth2 by lia. rewrite Nat.sub_diag. cbn [nth]. rewrite <- !app_assoc. cbn [app].
      destruct O as (_ & F). rewrite !ptrs_app in F. cbn [ptrs flat_map app] in F. fold (ptrs (vs ++ b)) in F. rewrite ptrs_app in F.
      rewrite !Forall_app in F. destruct F as (F1 & F2 & F3).
      fold (view u (h ++ [c]) b). fold (view u h b). rewrite !view_grow by auto. reflexivity.
Qed.

Lemma overwrite_split : forall (A : Type) (l : list A) i k c, i + k <= length l ->
  overwrite (Z.of_nat i) (Z.of_nat i + Z.of_nat k - 1) c l = firstn i l ++ repeat c k ++ skipn (i + k) l.
Proof.
  intros A l i k c H. unfold overwrite.
  assert (G : forall (l : list A) o i k, i + k <= length l ->
    map (fun ix => if ((Z.of_nat (o + i) <=? Z.of_nat (fst ix)) && (Z.of_nat (fst ix) <=? Z.of_nat (o + i) + Z.of_nat k - 1))%Z then c else snd ix)
      (combine (seq o (length l)) l) = firstn i l ++ repeat c k ++ skipn (i + k) l).
  { clear. induction l as [|x l IH]; intros o i k H.
    - cbn in H. assert (i = 0) by lia. assert (k = 0) by lia. subst. reflexivity.
    - cbn [length seq combine map fst snd]. destruct i as [|i].
      + destruct k as [|k].
        * cbn [firstn skipn repeat app Nat.add].
          destruct (Z.leb_spec (Z.of_nat (o + 0)) (Z.of_nat o)); [|lia].
          destruct (Z.leb_spec (Z.of_nat o) (Z.of_nat (o + 0) + Z.of_nat 0 - 1)); [lia|]. cbn [andb]. f_equal.
          specialize (IH (S o) 0 0 ltac:(lia)). cbn [firstn skipn repeat app] in IH. etransitivity; [|exact IH].
          apply map_ext_in. intros (j & y) Hj. apply in_combine_l in Hj. apply in_seq in Hj. cbn [fst snd].
          destruct (Z.leb_spec (Z.of_nat (o + 0)) (Z.of_nat j)); destruct (Z.leb_spec (Z.of_nat j) (Z.of_nat (o + 0) + Z.of_nat 0 - 1));
          destruct (Z.leb_spec (Z.of_nat (S o + 0)) (Z.of_nat j)); destruct (Z.leb_spec (Z.of_nat j) (Z.of_nat (S o + 0) + Z.of_nat 0 - 1)); try lia; reflexivity.
        * cbn [firstn skipn repeat app Nat.add].
          destruct (Z.leb_spec (Z.of_nat (o + 0)) (Z.of_nat o)); [|lia].
          destruct (Z.leb_spec (Z.of_nat o) (Z.of_nat (o + 0) + Z.of_nat (S k) - 1)); [|lia]. cbn [andb]. f_equal.
          cbn [length] in H. specialize (IH (S o) 0 k ltac:(lia)). cbn [firstn skipn repeat app] in IH. etransitivity; [|exact IH].
          apply map_ext_in. intros (j & y) Hj. apply in_combine_l in Hj. apply in_seq in Hj. cbn [fst snd].
          destruct (Z.leb_spec (Z.of_nat (o + 0)) (Z.of_nat j)); destruct (Z.leb_spec (Z.of_nat j) (Z.of_nat (o + 0) + Z.of_nat (S k) - 1));
          destruct (Z.leb_spec (Z.of_nat (S o + 0)) (Z.of_nat j)); destruct (Z.leb_spec (Z.of_nat j) (Z.of_nat (S o + 0) + Z.of_nat k - 1)); try lia; reflexivity.
      + cbn [firstn skipn app Nat.add].
        destruct (Z.leb_spec (Z.of_nat (o + S i)) (Z.of_nat o)); [lia|]. cbn [andb]. f_equal.
        cbn [length] in H. specialize (IH (S o) i k ltac:(lia)). rewrite <- IH.
        apply map_ext. intros (j & y). cbn [fst snd]. replace (o + S i) with (S o + i) by lia. reflexivity. }
  specialize (G l 0 i k H). exact G.
Qed.
Lemma overwrite_none : forall (A : Type) (l : list A) lo hi c, (hi < lo)%Z -> overwrite lo hi c l = l.
Proof.
  intros A l lo hi c H. unfold overwrite.
  assert (G : forall (l : list A) o, map (fun ix : nat * A => if ((lo <=? Z.of_nat (fst ix)) && (Z.of_nat (fst ix) <=? hi))%Z then c else snd ix) (combine (seq o (length l)) l) = l).
  { induction l0 as [|x l0 IH]; intros o; [reflexivity|]. cbn [length seq combine map fst snd]. rewrite IH.
    destruct (Z.leb_spec lo (Z.of_nat o)); destruct (Z.leb_spec (Z.of_nat o) hi); try lia; reflexivity. }
  apply G.
Qed.

Lemma range_start_spec : forall n s, (0 <= n)%Z -> range_start n s = start_pos n s.
Proof.
  intros. unfold range_start, start_pos, from_end.
  destruct (Z.ltb_spec s 0); destruct (Z.ltb_spec n s); try lia.
  - destruct (Z.ltb_spec (n + s) 0); cbn [orb]; auto. destruct (Z.ltb_spec n (n + s)); [lia|reflexivity].
  - destruct (Z.ltb_spec s 0); [lia|]. reflexivity.
  - destruct (Z.ltb_spec s 0); [lia|]. reflexivity.
Qed.
Lemma range_end_spec : forall n e, (0 < n)%Z -> range_end n e = end_pos n e.
Proof.
  intros n [e|] H; [|reflexivity]. unfold range_end, end_pos, from_end. 
  destruct (Z.leb_spec n e).
  - rewrite Z.min_r by lia. reflexivity.
  - rewrite Z.min_l by lia. reflexivity.
Qed.
Lemma start_pos_range : forall n s r, start_pos n s = Some r -> (0 <= r <= n)%Z.
Proof.
  intros n s r. unfold start_pos. destruct (Z.ltb_spec (from_end n s) 0); cbn [orb]; [discriminate|].
  destruct (Z.ltb_spec n (from_end n s)); [discriminate|]. intros E; injection E as <-. lia.
Qed.
Lemma end_pos_range : forall n e r, (0 <= n)%Z -> end_pos n e = Some r -> (-1 <= r <= n - 1)%Z.
Proof.
  intros n [e|] r Hn; unfold end_pos; cbv zeta; intros E.
  - unfold from_end in E. destruct (Z.ltb_spec (Z.min e (n - 1)) 0).
    + destruct (Z.ltb_spec (n + Z.min e (n - 1)) 0); [discriminate|]. injection E as <-. lia.
    + destruct (Z.ltb_spec (Z.min e (n - 1)) 0); [discriminate|]. injection E as <-. lia.
  - injection E as <-. lia.
Qed.

Definition spec_fillv (l : list (option C)) c s e : list (option C) :=
  let n := Z.of_nat (length l) in
  match start_pos n s, end_pos n e with
  | Some s, Some e => overwrite s e (Some c) l
  | _, _ => l
  end.

Lemma fill_ok : forall h a es val c s e, rep a es -> owned h es -> val < length h -> nth val h u = c ->
  exists h' a' es', fill C u h a val s e = Some (h', a') /\ rep a' es' /\ owned h' es' /\
    view u h' es' = spec_fillv (view u h es) c s e.
Proof.
  intros h a es val c s e (k & HS & HC) O LV V. unfold fill, spec_fillv. rewrite view_len, HC.
  rewrite range_start_spec by lia.
  assert (Triv : exists h' a' es', Some (h, a) = Some (h', a') /\ rep a' es' /\ owned h' es' /\ view u h' es' = view u h es).
  { exists h, a, es. split; auto. split; [exists k; auto|auto]. }
  destruct (start_pos (Z.of_nat (length es)) s) as [s'|] eqn:ES; [|exact Triv].
  destruct (Nat.eqb_spec (length es) 0) as [E0|E0].
  { assert (X : view u h es = []) by (apply length_zero_iff_nil; rewrite view_len; auto).
    destruct (end_pos (Z.of_nat (length es)) e) as [e'|] eqn:EE; [|exact Triv].
    destruct Triv as (h' & a' & es' & Q1 & Q2 & Q3 & Q4). exists h', a', es'. split; auto. split; auto. split; auto.
    rewrite Q4, X. reflexivity. }
  rewrite range_end_spec by lia. destruct (end_pos (Z.of_nat (length es)) e) as [e'|] eqn:EE; [|exact Triv].
  apply start_pos_range in ES. apply end_pos_range in EE; [|lia].
  destruct (Z.lt_ge_cases e' s') as [Hlt|Hge].
  - replace (Z.to_nat (e' - s' + 1)) with 0 by lia. cbn [fill_loop]. rewrite overwrite_none by auto.
    destruct Triv as (h' & a' & es' & Q1 & Q2 & Q3 & Q4). exists h, (mkA (sl a) (length es)), es. split; auto.
    split; [exists k; cbn [sl cnt]; auto|auto].
  - set (i := Z.to_nat s'). set (m := Z.to_nat (e' - s' + 1)).
    destruct (split_at _ es i ltac:(lia)) as (A & B & E1 & LA).
    destruct (split_at _ B m) as (D & T & E2 & LD). { subst es. rewrite app_length in EE. lia. }
    assert (OO : owned h (A ++ D ++ (T ++ repeat None k))).
    { destruct O as (O1 & O2). subst es B. rewrite !ptrs_app in *. unfold owned. rewrite !ptrs_app, ptrs_repeat, app_nil_r. auto. }
    destruct (fill_loop_ok m h A D (T ++ repeat None k) val c LD V LV OO) as (h' & vs' & E & L' & LH & V' & O' & W).
    rewrite HS, E1, E2. rewrite <- !app_assoc. rewrite LA in E. rewrite E.
    exists h', (mkA (A ++ vs' ++ T ++ repeat None k) (length es)), (A ++ vs' ++ T).
    split; [subst es; subst B; reflexivity|]. split.
    { exists k. cbn [sl cnt]. rewrite <- !app_assoc. split; auto. subst es B. rewrite !app_length. lia. }
    assert (EQ : A ++ vs' ++ T ++ repeat None k = (A ++ vs' ++ T) ++ repeat None k) by (rewrite <- !app_assoc; auto).
    split. { destruct O' as (P1 & P2). rewrite EQ in P1, P2. rewrite ptrs_app, ptrs_repeat, app_nil_r in P1, P2. split; auto. }
    rewrite EQ in W. rewrite (view_app C u h' (A ++ vs' ++ T)), (view_app C u h T), !view_repeat in W. rewrite !app_assoc in W. apply app_inv_tail in W.
    rewrite <- !app_assoc in W. rewrite W.
    replace s' with (Z.of_nat i) by lia. replace e' with (Z.of_nat i + Z.of_nat m - 1)%Z by lia.
    rewrite overwrite_split.
    + rewrite !view_app. rewrite firstn_app, firstn_all2 by (rewrite view_len; lia).
      replace (i - length (view u h A)) with 0 by (rewrite view_len; lia). rewrite firstn_O, app_nil_r.
      rewrite (app_assoc (view u h A) (view u h D)), skipn_app, skipn_all2 by (rewrite app_length, !view_len; lia).
      rewrite app_length, !view_len. replace (i + m - (length A + length D)) with 0 by lia. reflexivity.
    + rewrite !view_app, !app_length, !view_len. lia.
Qed.

(** ** a[n] = v *)
Lemma assign_any : forall h a es n c, rep a es -> owned h es ->
  assign C M h a n c = Some (Failed a h) \/
  exists h' a' es', assign C M h a n c = Some (Done (h', a')) /\ rep a' es' /\ owned h' es' /\
    view u h' es' = (if n <? length es then firstn n (view u h es) ++ Some c :: skipn (S n) (view u h es)
                     else view u h es ++ repeat None (n - length es) ++ [Some c]).
Proof.
  intros h a es n c R O. unfold assign. destruct (rep_sizer M a es n R) as [H|(a1 & k & H & HS & HC & L)]; rewrite H; [auto|right].
  destruct (Nat.ltb_spec n (length es)) as [Hn|Hn].
  - destruct (split_at _ es n ltac:(lia)) as (A & B & E & LA). destruct B as [|v B]; [subst es; rewrite app_length in Hn; cbn in Hn; lia|].
    assert (EV : forall x, firstn n (view u h A ++ x :: view u h B) = view u h A).
    { intros. rewrite firstn_app, firstn_all2 by (rewrite view_len; lia). replace (n - length (view u h A)) with 0 by (rewrite view_len; lia). rewrite firstn_O, app_nil_r; auto. }
    assert (ES : forall x, skipn (S n) (view u h A ++ x :: view u h B) = view u h B).
    { intros. rewrite skipn_app, skipn_all2 by (rewrite view_len; lia). replace (S n - length (view u h A)) with 1 by (rewrite view_len; lia). reflexivity. }
    rewrite HS, E, <- app_assoc. cbn [app]. rewrite get_mid' by auto. destruct v as [p|].
    + assert (Hp : p < length h). { destruct O as (_ & F). rewrite Forall_forall in F. apply F. apply in_ptrs. subst es. apply in_or_app. right. left. auto. }
      exists (wr C h p c), a1, es. split; auto. split; [exists k; split; auto; lia|]. split.
      { destruct O as (O1 & O2). split; auto. rewrite wr_length; auto. }
      subst es. rewrite !view_app. cbn [view map option_map]. fold (view u h B). rewrite EV, ES. fold (view u (wr C h p c) B). rewrite wr_same by auto.
      destruct O as (ND & _). rewrite ptrs_app in ND. cbn [ptrs flat_map app] in ND. fold (ptrs B) in ND.
      pose proof (NoDup_remove_2 _ _ _ ND) as NI.
      f_equal; [|f_equal]; (apply view_ext; intros q Hq; apply wr_other; auto; intro; subst; apply NI, in_or_app; auto).
    + rewrite put_mid' by auto. cbn [cnt]. rewrite HC. destruct (Nat.ltb_spec (Nat.max (length es) n) (n + 1)); [lia|].
      eexists _, _, (A ++ Some (length h) :: B). split; [reflexivity|]. split.
      { exists k. cbn [sl cnt]. rewrite <- app_assoc. split; auto. subst es. rewrite !app_length in *. cbn [length] in *. lia. }
      split.
      { pose proof (owned_insert C h [c] [] A B) as I. cbn [length seq map app] in I. apply I.
        subst es. eapply owned_sub with (b := [None]); exact O. }
      subst es. rewrite !view_app. cbn [view map option_map]. fold (view u h B). rewrite EV, ES. fold (view u (h ++ [c]) B).
      rewrite app_nth2, Nat.sub_diag by lia. cbn [nth].
      destruct O as (_ & F). rewrite !ptrs_app in F. cbn [ptrs flat_map app] in F. fold (ptrs B) in F.
      rewrite !Forall_app in F. destruct F as (F1 & F2). rewrite !view_grow by auto. reflexivity.
  - assert (EK : k = (n - length es) + S (length es + k - n - 1)) by lia. rewrite HS, EK, repeat_app. cbn [repeat].
    rewrite app_assoc. rewrite get_mid' by (rewrite app_length, repeat_length; lia).
    rewrite put_mid' by (rewrite app_length, repeat_length; lia). cbn [cnt]. rewrite HC.
    destruct (Nat.ltb_spec (Nat.max (length es) n) (n + 1)); [|lia]. unfold set_length. cbn [sl].
    match goal with |- context [?a <=? ?b] => destruct (Nat.leb_spec a b) as [H1|H1]; [|rewrite !app_length in H1; cbn [length] in H1; rewrite !repeat_length in H1; lia] end.
    eexists _, _, (es ++ repeat None (n - length es) ++ [Some (length h)]). split; [reflexivity|]. split.
    { exists (length es + k - n - 1). cbn [sl cnt]. rewrite <- !app_assoc. split; auto. rewrite !app_length, repeat_length. cbn. lia. }
    split.
    { pose proof (owned_insert C h [c] [] (es ++ repeat None (n - length es)) []) as I. cbn [length seq map app] in I.
      rewrite app_assoc. apply I. rewrite app_nil_r. destruct O as (O1 & O2). unfold owned. rewrite ptrs_app, ptrs_repeat, app_nil_r. auto. }
    rewrite !view_app, view_repeat. rewrite view_grow by apply O. cbn [view map option_map]. rewrite app_nth2, Nat.sub_diag by lia. reflexivity.
Qed.
Lemma assign_ok : forall h a es n c, rep a es -> owned h es -> n + 16 <= M ->
  exists h' a' es', assign C M h a n c = Some (Done (h', a')) /\ rep a' es' /\ owned h' es' /\
    view u h' es' = (if n <? length es then firstn n (view u h es) ++ Some c :: skipn (S n) (view u h es)
                     else view u h es ++ repeat None (n - length es) ++ [Some c]).
Proof.
  intros h a es n c R O L. destruct (assign_any h a es n c R O) as [X|X]; auto. exfalso. unfold assign in X.
  destruct (rep_sizer_ok M a es n R L) as (a1 & k & H & HS & HC & LL). rewrite H in X.
  repeat match type of X with match ?e with _ => _ end = _ => destruct e; try discriminate end.
Qed.
End Q.
