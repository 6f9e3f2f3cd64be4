(** Proofs about dynamic strings. *)
From Coq Require Import ZArith List Bool Lia.
Import ListNotations.
From Verif Require Import Bits DStringModel DStringSpec.
Local Open Scope Z_scope.

Lemma size_nonneg : forall A (l : list A), 0 <= size l. Proof. unfold size; lia. Qed.
Lemma size_app : forall A (a b : list A), size (a ++ b) = size a + size b.
Proof. intros. unfold size. rewrite app_length. lia. Qed.
Lemma size_map : forall A B (f : A -> B) l, size (map f l) = size l.
Proof. intros. unfold size. rewrite map_length. auto. Qed.
Lemma size_repeat : forall A (x : A) n, 0 <= n -> size (repeat x (Z.to_nat n)) = n.
Proof. intros. unfold size. rewrite repeat_length. lia. Qed.

Lemma store_ok : forall b off cs, 0 <= off -> off + size cs <= size b ->
  exists b', store b off cs = Some b' /\ size b' = size b /\
    (forall n, n <= off -> firstn (Z.to_nat n) b' = firstn (Z.to_nat n) b) /\
    firstn (Z.to_nat (off + size cs)) b' = firstn (Z.to_nat off) b ++ cs.
Proof.
  intros b off cs H1 H2. unfold store.
  replace ((0 <=? off) && (off + size cs <=? size b)) with true
    by (symmetry; apply andb_true_iff; split; apply Z.leb_le; lia).
  eexists; split; [reflexivity|]. unfold size in *.
  assert (LF : length (firstn (Z.to_nat off) b) = Z.to_nat off) by (rewrite firstn_length; lia).
  repeat split.
  - rewrite !app_length, skipn_length, LF. lia.
  - intros n Hn. rewrite firstn_app, LF. replace (Z.to_nat n - Z.to_nat off)%nat with 0%nat by lia.
    rewrite firstn_O, app_nil_r, firstn_firstn. f_equal. lia.
  - rewrite app_assoc, firstn_app.
    replace (Z.to_nat (off + Z.of_nat (length cs))) with (length (firstn (Z.to_nat off) b ++ cs))
      by (rewrite app_length, LF; lia).
    rewrite firstn_all, Nat.sub_diag, firstn_O, app_nil_r. reflexivity.
Qed.

Definition wf (d : ds) (c : list Z) : Prop :=
  d_len d = size c /\ ds_bytes d = map Some c /\ 0 < static_size d < MAX_ALLOC /\ d_space d < MAX_ALLOC /\ d_len d <= d_space d /\
  match d_heap d with
  | Some h => size h = d_space d + 1
  | None => d_space d <= static_size d /\ d_len d < static_size d
  end.

Lemma wf_bound : forall d c, wf d c -> 0 <= d_len d /\ d_len d < size (buffer d) /\ d_len d < MAX_ALLOC.
Proof.
  intros d c (H1 & H2 & H3 & H4 & H6 & H5). pose proof (size_nonneg _ c). unfold buffer, static_size in *.
  destruct (d_heap d); lia.
Qed.

Lemma ltb_sym : forall a b, a < b -> (a <? b) = true. Proof. intros; apply Z.ltb_lt; auto. Qed.

(** The growing part of Jsi_DSSetLength *)
Definition grown (d : ds) (len : Z) : option ds :=
    if d_space d <=? len then
      match d_heap d with
      | Some h => Some (DS (d_str d) (Some (resize h (len + 1))) (d_len d) len)
      | None =>
        if static_size d <=? len then
          if 0 <? d_len d then
            if d_len d + 1 <=? static_size d then
              match store (repeat None (Z.to_nat (len + 1))) 0 (firstn (Z.to_nat (d_len d + 1)) (d_str d)) with
              | Some h => Some (DS (d_str d) (Some h) (d_len d) len)
              | None => None
              end
            else None
          else Some (DS (d_str d) (Some (repeat None (Z.to_nat (len + 1)))) (d_len d) len)
        else Some (DS (d_str d) None (d_len d) len)
      end
    else Some d.

Lemma nth_error_firstn_lt : forall A (l : list A) n k, (k < n)%nat -> nth_error (firstn n l) k = nth_error l k.
Proof. induction l; intros [|n] [|k] H; simpl; try lia; auto. apply IHl; lia. Qed.
Lemma term_firstn : forall d m, 0 <= d_len d -> d_len d < m ->
  ds_terminated d <-> nth_error (firstn (Z.to_nat m) (buffer d)) (Z.to_nat (d_len d)) = Some (Some 0).
Proof. intros. unfold ds_terminated. rewrite nth_error_firstn_lt by lia. tauto. Qed.

Lemma grown_ok : forall d c n, wf d c -> 0 <= n < MAX_ALLOC ->
  exists d', grown d n = Some d' /\ wf d' c /\ d_space d' = Z.max (d_space d) n /\
    d_str d' = d_str d /\
    (ds_terminated d -> c <> [] \/ n < d_space d \/ (d_heap d <> None \/ n < static_size d) -> ds_terminated d') /\
    (n < d_space d \/ n < static_size d -> d_heap d = None -> d_heap d' = None).
Proof.
  intros d c n W Hn. pose proof (wf_bound d c W) as (B1 & B2 & B3).
  destruct W as (H1 & H2 & H3 & H4 & H6 & H5). unfold grown.
  destruct (d_space d <=? n) eqn:E1; b2p.
  2:{ exists d. repeat split; auto; try lia. }
  destruct (d_heap d) as [h|] eqn:EH.
  - eexists; split; [reflexivity|].
    assert (RF : forall m, m <= size h -> firstn (Z.to_nat m) (resize h (n + 1)) = firstn (Z.to_nat m) h).
    { intros m Hm. unfold resize, size in *. rewrite firstn_all2 with (n := Z.to_nat (n + 1)) by lia.
      rewrite firstn_app. replace (Z.to_nat m - length h)%nat with 0%nat by lia. rewrite firstn_O, app_nil_r. auto. }
    assert (SZ : size (resize h (n + 1)) = n + 1).
    { unfold resize. unfold size in *. rewrite app_length, firstn_length, repeat_length. lia. }
    unfold wf, ds_bytes, buffer, static_size in *. cbn [d_heap d_len d_space d_str] in *. rewrite EH in *.
    repeat split; auto; try lia.
    + rewrite <- H2. apply RF. lia.
    + intros T _. unfold ds_terminated, buffer in *. cbn [d_heap d_len]. rewrite EH in T.
      rewrite <- (nth_error_firstn_lt _ _ (Z.to_nat (d_len d + 1))) by lia. rewrite RF by lia.
      rewrite nth_error_firstn_lt by lia. auto.
    + intros _ Q; discriminate Q.
  - destruct H5 as (H5 & H7). destruct (static_size d <=? n) eqn:E2; b2p.
    + assert (SR : size (@repeat cell None (Z.to_nat (n + 1))) = n + 1) by (apply size_repeat; lia).
      destruct (0 <? d_len d) eqn:E3; b2p.
      * replace (d_len d + 1 <=? static_size d) with true by (symmetry; apply Z.leb_le; lia).
        assert (SF : size (firstn (Z.to_nat (d_len d + 1)) (d_str d)) = d_len d + 1).
        { unfold size, static_size, size in *. rewrite firstn_length. lia. }
        destruct (store_ok (repeat None (Z.to_nat (n + 1))) 0 (firstn (Z.to_nat (d_len d + 1)) (d_str d)))
          as (h & -> & L1 & L2 & L3); [lia|setoid_rewrite SR; lia|].
        assert (L1' : size h = n + 1) by (rewrite L1; exact SR).
        eexists; split; [reflexivity|].
        rewrite SF in L3. cbn [Z.add] in L3. change (firstn (Z.to_nat 0) _) with (@nil cell) in L3. cbn [app] in L3.
        unfold wf, ds_bytes, buffer, static_size in *. cbn [d_heap d_len d_space d_str] in *. rewrite EH in *.
        repeat split; auto; try lia.
        -- rewrite <- H2.
           replace (firstn (Z.to_nat (d_len d)) h) with (firstn (Z.to_nat (d_len d)) (firstn (Z.to_nat (d_len d + 1)) h)) by (rewrite firstn_firstn; f_equal; lia).
           rewrite L3, firstn_firstn. f_equal. lia.
        -- intros T _. unfold ds_terminated, buffer in *. cbn [d_heap d_len]. rewrite EH in T.
           rewrite <- (nth_error_firstn_lt _ _ (Z.to_nat (d_len d + 1))) by lia. rewrite L3.
           rewrite nth_error_firstn_lt by lia. auto.
      * eexists; split; [reflexivity|].
        assert (EL : d_len d = 0) by lia. assert (EC : c = []) by (destruct c; [auto|unfold size in *; simpl in *; lia]).
        unfold wf, ds_bytes, buffer, static_size in *. cbn [d_heap d_len d_space d_str] in *. rewrite EH in *.
        repeat split; auto; try lia.
        -- rewrite EL, EC. reflexivity.
        -- intros T [Q|[Q|[Q|Q]]]; [congruence|lia|congruence|lia].
    + eexists; split; [reflexivity|].
      unfold wf, ds_bytes, buffer, static_size in *. cbn [d_heap d_len d_space d_str] in *. rewrite EH in *.
      repeat split; auto; try lia.
      intros T _. unfold ds_terminated, buffer in *. cbn [d_heap d_len d_str]. rewrite EH in T. auto.
Qed.

Lemma map_firstn : forall A B (f : A -> B) n l, firstn n (map f l) = map f (firstn n l).
Proof. intros. symmetry. revert l. induction n; destruct l; simpl; auto. f_equal; auto. Qed.

(** Writing at or after the end of the content *)
Lemma buffer_set : forall d b, buffer (set_buffer d b) = b.
Proof. intros. unfold buffer, set_buffer. destruct (d_heap d); reflexivity. Qed.
Lemma static_set : forall d b, size b = size (buffer d) -> static_size (set_buffer d b) = static_size d.
Proof. intros d b H. unfold static_size, set_buffer, buffer in *. destruct (d_heap d); auto. Qed.

Lemma wf_write : forall d c b c', wf d c -> size b = size (buffer d) -> size c' < size b -> size c' <= d_space d ->
  firstn (Z.to_nat (size c')) b = map Some c' -> wf (set_len (set_buffer d b) (size c')) c'.
Proof.
  intros d c b c' W HS HL HSP HB. destruct W as (H1 & H2 & H3 & H4 & H6 & H5).
  unfold wf, ds_bytes, set_len, set_buffer, buffer, static_size in *.
  destruct (d_heap d); cbn [d_heap d_len d_space d_str] in *; repeat split; auto; try lia.
Qed.
Lemma term_write : forall d b n, 0 <= n -> nth_error b (Z.to_nat n) = Some (Some 0) ->
  ds_terminated (set_len (set_buffer d b) n).
Proof. intros. unfold ds_terminated, set_len, set_buffer, buffer. destruct (d_heap d); auto. Qed.

Lemma set_length_ok : forall d c n, wf d c -> 0 <= n ->
  let n' := Z.min n (MAX_ALLOC - 1) in
  exists d', ds_set_length d n = Some (d', d_space d') /\ wf d' (firstn (Z.to_nat n) c) /\
    d_space d' = Z.max (d_space d) n' /\
    (ds_terminated d -> c <> [] \/ n < d_space d \/ (d_heap d <> None \/ n < static_size d) -> ds_terminated d') /\
    (n < d_space d \/ n < static_size d -> d_heap d = None -> d_heap d' = None).
Proof.
  intros d c n W Hn n'. unfold ds_set_length.
  assert (EN : (if MAX_ALLOC <=? n then MAX_ALLOC - 1 else n) = n').
  { unfold n'. destruct (MAX_ALLOC <=? n) eqn:E; b2p; lia. }
  rewrite EN. cbv zeta.
  assert (Hn' : 0 <= n' < MAX_ALLOC) by (unfold n', MAX_ALLOC in *; lia).
  destruct (grown_ok d c n' W Hn') as (d1 & G & W1 & SP & _ & T1 & K1).
  fold (grown d n'). rewrite G.
  pose proof (wf_bound d1 c W1) as (B1 & B2 & B3). pose proof W1 as (L1 & L2 & _).
  assert (EF : firstn (Z.to_nat n) c = firstn (Z.to_nat n') c).
  { unfold n'. destruct (Z.le_gt_cases n (MAX_ALLOC - 1)); [rewrite Z.min_l by lia; auto|].
    rewrite Z.min_r by lia. unfold size in *. rewrite !firstn_all2 by lia. auto. }
  rewrite EF.
  assert (TT : ds_terminated d -> c <> [] \/ n < d_space d \/ (d_heap d <> None \/ n < static_size d) -> ds_terminated d1).
  { intros T Q. apply T1; auto. unfold n'. destruct Q as [Q|[Q|[Q|Q]]]; [auto|right; left; lia|auto|right; right; right; lia]. }
  assert (KK : n < d_space d \/ n < static_size d -> d_heap d = None -> d_heap d1 = None).
  { intros Q. apply K1. unfold n'. destruct Q; [left|right]; lia. }
  destruct (n' <? d_len d1) eqn:E; b2p.
  - destruct (store_ok (buffer d1) n' [Some 0]) as (b & -> & S1 & S2 & S3); [lia|unfold size at 1; simpl; lia|].
    assert (SC : size (firstn (Z.to_nat n') c) = n') by (unfold size in *; rewrite firstn_length; lia).
    exists (set_len (set_buffer d1 b) n'); split; [|split; [|split; [|split]]].
    + unfold set_len, set_buffer. destruct (d_heap d1); reflexivity.
    + replace (set_len (set_buffer d1 b) n') with (set_len (set_buffer d1 b) (size (firstn (Z.to_nat n') c))) by (rewrite SC; auto).
      apply (wf_write d1 c); auto; [lia|lia|].
      rewrite SC, S2 by lia. rewrite <- map_firstn, <- L2. unfold ds_bytes. rewrite firstn_firstn. f_equal. lia.
    + unfold set_len, set_buffer; destruct (d_heap d1); cbn [d_space]; auto.
    + intros _ _. apply term_write; [lia|].
      rewrite <- (nth_error_firstn_lt _ _ (Z.to_nat (n' + size [Some 0]))) by (unfold size; simpl; lia).
      rewrite S3. rewrite nth_error_app2 by (rewrite firstn_length; lia).
      rewrite firstn_length. unfold size in *. replace (Z.to_nat n' - Nat.min (Z.to_nat n') (length (buffer d1)))%nat with 0%nat by lia. reflexivity.
    + intros Q1 Q2. specialize (KK Q1 Q2). unfold set_len, set_buffer. rewrite KK. reflexivity.
  - exists d1. split; [auto|]. split; [|auto].
    rewrite firstn_all2; auto. unfold size in *; lia.
Qed.

Lemma append_write_ok : forall d c s, wf d c -> size c + size s + 1 <= size (buffer d) -> size c + size s <= d_space d ->
  exists b, store (buffer d) (d_len d) (map Some s ++ [Some 0]) = Some b /\
    wf (set_len (set_buffer d b) (d_len d + size s)) (c ++ s) /\
    ds_terminated (set_len (set_buffer d b) (d_len d + size s)).
Proof.
  intros d c s W H HSP. pose proof (wf_bound d c W) as (B1 & B2 & B3). pose proof W as (L1 & L2 & _).
  assert (SZ : size (map Some s ++ [Some 0]) = size s + 1) by (rewrite size_app, size_map; reflexivity).
  destruct (store_ok (buffer d) (d_len d) (map Some s ++ [Some 0])) as (b & -> & S1 & S2 & S3); [lia|lia|].
  exists b. split; [reflexivity|]. rewrite SZ in S3. unfold ds_bytes in L2. rewrite L2, app_assoc, <- map_app in S3.
  assert (SC : size (c ++ s) = d_len d + size s) by (rewrite size_app; lia).
  rewrite <- SC in *. replace (d_len d + (size s + 1)) with (size (c ++ s) + 1) in S3 by lia.
  pose proof (size_nonneg _ (c ++ s)). split.
  - apply (wf_write d c); auto; [lia|lia|].
    replace (firstn (Z.to_nat (size (c ++ s))) b) with (firstn (Z.to_nat (size (c ++ s))) (firstn (Z.to_nat (size (c ++ s) + 1)) b))
      by (rewrite firstn_firstn; f_equal; lia).
    rewrite S3, firstn_app. unfold size. rewrite map_length.
    replace (Z.to_nat (Z.of_nat (length (c ++ s))) - length (c ++ s))%nat with 0%nat by lia.
    rewrite firstn_O, app_nil_r, firstn_all2; auto. rewrite map_length; lia.
  - apply term_write; [lia|].
    rewrite <- (nth_error_firstn_lt _ _ (Z.to_nat (size (c ++ s) + 1))) by lia. rewrite S3.
    rewrite nth_error_app2 by (rewrite map_length; unfold size in *; lia).
    rewrite map_length. unfold size. replace (Z.to_nat (Z.of_nat (length (c ++ s))) - length (c ++ s))%nat with 0%nat by lia. reflexivity.
Qed.

Lemma append_ok : forall d c s, wf d c ->
  exists d', ds_append d s = Some d' /\
    ((wf d' (c ++ s) /\ ds_terminated d') \/
     (wf d' c /\ HALF_LIMIT <= size (c ++ s) + 1)).
Proof.
  intros d c s W. pose proof (wf_bound d c W) as (B1 & B2 & B3). pose proof W as (L1 & L2 & H3 & H4 & H6 & H5).
  pose proof (size_nonneg _ s) as NS. unfold ds_append. cbv zeta.
  set (nsiz := size s + d_len d + 1).
  destruct (d_space d <=? nsiz) eqn:E; b2p.
  - set (ns := if nsiz <? d_space d * 2 then d_space d * 2 else nsiz).
    assert (NB : nsiz <= ns /\ d_space d <= ns /\ ns <= 2 * nsiz) by (unfold ns; destruct (nsiz <? _) eqn:Q; b2p; lia).
    destruct (set_length_ok d c ns W) as (d1 & -> & W1 & SP & T1 & _); [lia|].
    cbv zeta in SP.
    assert (FC : firstn (Z.to_nat ns) c = c) by (apply firstn_all2; unfold size in *; lia). rewrite FC in W1.
    destruct (d_space d1 <? ns) eqn:E2; b2p.
    + eexists; split; [reflexivity|]. right. split; auto.
      assert (MAX_ALLOC - 1 < ns) by lia. rewrite size_app. unfold HALF_LIMIT, MAX_ALLOC in *. lia.
    + assert (SE : d_space d1 = ns) by lia.
      pose proof W1 as (L1' & _ & H3' & H4' & H6' & H5').
      destruct (append_write_ok d1 c s W1) as (b & -> & WW & TT).
      { unfold buffer, static_size in *. destruct (d_heap d1); lia. }
      { lia. }
      eexists; split; [reflexivity|]. left; auto.
  - destruct (append_write_ok d c s W) as (b & -> & WW & TT).
    { unfold buffer, static_size in *. destruct (d_heap d); lia. }
    { lia. }
    eexists; split; [reflexivity|]. left; auto.
Qed.

Lemma wf_str0 : forall d b sp, 0 < static_size d < MAX_ALLOC -> 0 <= sp <= static_size d -> size b = size (d_str d) ->
  wf (DS b None 0 sp) [].
Proof.
  intros d b sp H HS HB. unfold wf, ds_bytes, buffer, static_size in *. cbn [d_heap d_len d_space d_str].
  repeat split; auto; lia.
Qed.
Lemma str0 : forall d, 0 < static_size d -> exists b, store (d_str d) 0 [Some 0] = Some b /\ size b = size (d_str d) /\
   nth_error b 0 = Some (Some 0).
Proof.
  intros d H. unfold static_size in H.
  destruct (store_ok (d_str d) 0 [Some 0]) as (b & -> & S1 & S2 & S3); [lia|unfold size at 1; simpl; lia|].
  exists b. repeat split; auto. change (firstn (Z.to_nat 0) _) with (@nil cell) in S3. cbn [app] in S3.
  destruct b as [|x b]; [discriminate|]. change (Z.to_nat (0 + size [Some 0])) with 1%nat in S3. cbn in S3 |- *. congruence.
Qed.

Lemma free_ok : forall d c, wf d c ->
  exists d', ds_free d = Some d' /\ wf d' [] /\ (ds_terminated d \/ d_space d <> 0 -> ds_terminated d').
Proof.
  intros d c W. pose proof (wf_bound d c W). unfold ds_free. destruct (d_space d =? 0) eqn:E; b2p.
  - assert (c = []) by (destruct W as (Q1 & _ & _ & _ & Q2 & _); destruct c; auto; unfold size in *; simpl in *; lia). subst c. exists d. repeat split; auto; try apply W. intros [Q|Q]; [auto|congruence].
  - destruct W as (_ & _ & H3 & H4 & H6 & _). destruct (str0 d) as (b & -> & S1 & S2); [lia|].
    eexists; split; [reflexivity|]. split; [apply (wf_str0 d); auto; lia|]. intros _. exact S2.
Qed.

Lemma free_dup_ok : forall d c, wf d c ->
  exists d', ds_free_dup d = Some (d', map Some c) /\ wf d' [] /\ (ds_terminated d -> ds_terminated d').
Proof.
  intros d c W. unfold ds_free_dup. pose proof W as (L1 & L2 & H3 & H4 & H6 & H5).
  destruct (d_heap d) as [h|] eqn:EH.
  - destruct (str0 d) as (b & -> & S1 & S2); [lia|]. eexists; split; [|split].
    + rewrite <- L2. unfold ds_bytes, buffer. rewrite EH. reflexivity.
    + apply (wf_str0 d); auto. lia.
    + intros _. exact S2.
  - destruct (set_length_ok d c 0 W) as (d1 & -> & W1 & SP & T1 & _); [lia|].
    eexists; split; [|split].
    + rewrite <- L2. unfold ds_bytes, buffer. rewrite EH. reflexivity.
    + exact W1.
    + intros T. apply T1; auto. right; right. right. lia.
Qed.

(** A write at or after the end of the content keeps the content *)
Lemma wf_scribble : forall d c cs, wf d c -> d_len d + size cs <= size (buffer d) ->
  exists b, store (buffer d) (d_len d) cs = Some b /\ wf (set_buffer d b) c.
Proof.
  intros d c cs W H. pose proof (wf_bound d c W) as (B1 & B2 & B3). pose proof W as (L1 & L2 & _ & _ & H6 & _).
  destruct (store_ok (buffer d) (d_len d) cs) as (b & -> & S1 & S2 & S3); [lia|lia|].
  exists b. split; auto.
  assert (Q : wf (set_len (set_buffer d b) (size c)) c).
  { apply (wf_write d c); auto; [lia|lia|]. rewrite <- L1, S2 by lia. exact L2. }
  replace (set_buffer d b) with (set_len (set_buffer d b) (size c)); auto.
  unfold set_len, set_buffer. rewrite <- L1. destruct (d_heap d); reflexivity.
Qed.

Lemma snprintf_size : forall n s, 0 < n -> size (snprintf_cells n s) <= n /\ size (snprintf_cells n s) <= size s + 1.
Proof.
  intros n s H. unfold snprintf_cells. replace (n <=? 0) with false by (symmetry; apply Z.leb_gt; lia).
  rewrite size_app, size_map. unfold size. rewrite firstn_length. simpl. lia.
Qed.

Lemma printf_ok : forall d c s, wf d c ->
  exists d', ds_printf d s = Some d' /\ (wf d' (c ++ s) \/ wf d' c) /\
    ((PRINTF_BUF <= d_space d - d_len d \/ PRINTF_BUF <= size s) -> wf d' c) /\
    (d_space d - d_len d < PRINTF_BUF -> size s < PRINTF_BUF -> size (c ++ s) + 1 < HALF_LIMIT -> wf d' (c ++ s) /\ ds_terminated d').
Proof.
  intros d c s W. pose proof (wf_bound d c W) as (B1 & B2 & B3). pose proof W as (L1 & L2 & H3 & H4 & H6 & H5).
  pose proof (size_nonneg _ s) as NS. unfold ds_printf. cbv zeta.
  set (avail := d_space d - d_len d). destruct (PRINTF_BUF <=? avail) eqn:ED; b2p.
  - assert (AV : d_len d + size (snprintf_cells avail s) <= size (buffer d)).
    { destruct (snprintf_size avail s) as (Q & _); [unfold PRINTF_BUF in *; lia|].
      unfold buffer, static_size, avail in *. destruct (d_heap d); lia. }
    destruct (wf_scribble d c _ W AV) as (b & -> & W1). cbn [option_map].
    destruct (MAX_ALLOC <? size s + d_len d) eqn:EM; b2p.
    { eexists; split; [reflexivity|]. split; [auto|]. split; [auto|]. lia. }
    destruct (avail <=? size s) eqn:EA; b2p.
    2:{ eexists; split; [reflexivity|]. split; [auto|]. split; [auto|]. lia. }
    assert (DL : d_len (set_buffer d b) = d_len d) by (unfold set_buffer; destruct (d_heap d); auto).
    destruct (set_length_ok _ c (d_len d + size s + 1) W1) as (d2 & -> & W2 & SP & _); [lia|]. cbv zeta in SP.
    rewrite firstn_all2 in W2 by (unfold size in *; lia).
    destruct (d_space d2 <? d_len d + size s + 1) eqn:ES; b2p.
    { eexists; split; [reflexivity|]. split; [auto|]. split; [auto|]. lia. }
    pose proof W2 as (L1' & _ & H3' & H4' & H6' & H5').
    destruct (wf_scribble d2 c (snprintf_cells (d_len d + 1) s) W2) as (b2 & EB & W3).
    { destruct (snprintf_size (d_len d + 1) s) as (_ & Q); [lia|].
      unfold buffer, static_size in *. destruct (d_heap d2); lia. }
    rewrite L1', <- L1 in EB. rewrite EB. cbn [option_map].
    eexists; split; [reflexivity|]. split; [auto|]. split; [auto|]. lia.
  - destruct (MAX_ALLOC <? size s + d_len d) eqn:EM; b2p.
    { eexists; split; [reflexivity|]. split; [auto|]. split; [auto|]. intros. rewrite size_app in *. unfold HALF_LIMIT, MAX_ALLOC in *. lia. }
    destruct (PRINTF_BUF <=? size s) eqn:EA; b2p.
    + destruct (set_length_ok _ c (d_len d + size s + 1) W) as (d2 & -> & W2 & SP & _); [lia|]. cbv zeta in SP.
      rewrite firstn_all2 in W2 by (unfold size in *; lia).
      destruct (d_space d2 <? d_len d + size s + 1) eqn:ES; b2p.
      { eexists; split; [reflexivity|]. split; [auto|]. split; [auto|]. lia. }
      pose proof W2 as (L1' & _ & H3' & H4' & H6' & H5').
      destruct (wf_scribble d2 c (snprintf_cells (d_len d + 1) s) W2) as (b2 & EB & W3).
      { destruct (snprintf_size (d_len d + 1) s) as (_ & Q); [lia|].
        unfold buffer, static_size in *. destruct (d_heap d2); lia. }
      rewrite L1', <- L1 in EB. rewrite EB. cbn [option_map].
      eexists; split; [reflexivity|]. split; [auto|]. split; [auto|]. lia.
    + destruct (append_ok d c s W) as (d' & -> & Q). exists d'. split; [auto|].
      split; [destruct Q as [(Q & _)|(Q & _)]; auto|]. split; [lia|].
      intros _ _ QH. destruct Q as [Q|(Q1 & Q2)]; [auto|lia].
Qed.

Lemma step_ok : forall d c o, wf d c -> op_ok o ->
  exists d' c', ds_step d o = Some d' /\ spec_step c o c' /\ wf d' c'.
Proof.
  intros d c o W HO. destruct o as [s|n|s| | |s]; cbn [ds_step].
  - destruct (append_ok d c s W) as (d' & E & [(Q1 & Q2)|(Q1 & Q2)]).
    + exists d', (c ++ s). repeat split; auto; try apply Q1. constructor.
    + exists d', c. repeat split; auto; try apply Q1. constructor; auto.
  - destruct (set_length_ok d c n W HO) as (d' & -> & W1 & _). cbn [option_map fst].
    exists d', (firstn (Z.to_nat n) c). split; [auto|]. split; [constructor; auto|auto].
  - unfold ds_set. destruct (set_length_ok d c 0 W) as (d' & -> & W1 & _); [lia|].
    change (firstn (Z.to_nat 0) c) with (@nil Z) in W1.
    destruct (append_ok d' [] s W1) as (d2 & E & [(Q1 & Q2)|(Q1 & Q2)]).
    + exists d2, s. repeat split; auto; try apply Q1. constructor.
    + exists d2, []. repeat split; auto; try apply Q1. constructor; auto.
  - destruct (free_ok d c W) as (d' & -> & W1 & _). exists d', []. repeat split; auto; try apply W1. constructor.
  - destruct (free_dup_ok d c W) as (d' & -> & W1 & _). cbn [option_map fst]. exists d', []. repeat split; auto; try apply W1. constructor.
  - destruct (printf_ok d c s W) as (d' & -> & [Q|Q] & _).
    + exists d', (c ++ s). repeat split; auto; try apply Q. constructor.
    + exists d', c. repeat split; auto; try apply Q. constructor.
Qed.

Lemma run_ok : forall os d c, wf d c -> Forall op_ok os ->
  exists d' c', ds_run d os = Some d' /\ spec_run c os c' /\ wf d' c'.
Proof.
  induction os as [|o os IH]; intros d c W H.
  - exists d, c. split; [auto|]. split; [constructor|auto].
  - inversion H; subst. destruct (step_ok d c o W) as (d1 & c1 & E & S1 & W1); auto.
    destruct (IH d1 c1 W1) as (d2 & c2 & E2 & S2 & W2); auto.
    exists d2, c2. cbn [ds_run]. rewrite E. split; [auto|]. split; [econstructor; eauto|auto].
Qed.
Lemma init_wf : wf ds_init [].
Proof. unfold wf, ds_init, static_size, size, MAX_ALLOC. cbn [d_str d_heap d_len d_space]. rewrite ?repeat_length. repeat split; cbn; lia. Qed.
Lemma var_wf : forall n, (0 < n)%nat -> Z.of_nat n < MAX_ALLOC -> wf (ds_var n) [].
Proof.
  intros n H1 H2. unfold wf, ds_var, static_size, size, MAX_ALLOC in *. cbn [d_str d_heap d_len d_space length].
  rewrite ?repeat_length. repeat split; cbn [length]; lia.
Qed.
