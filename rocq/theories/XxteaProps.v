(** Property C15: encryption round trip. *)
From Coq Require Import ZArith List Bool Lia.
Import ListNotations.
From Verif Require Import Bits UtfModel CodecSpec XxteaModel.
Local Open Scope Z_scope.

Definition word (w : Z) : Prop := 0 <= w < W32.
Definition words (v : list Z) : Prop := Forall word v.

Lemma set_nth_length : forall v p x, length (set_nth p x v) = length v.
Proof. induction v; destruct p; intros; simpl; auto. Qed.
Lemma at_set_same : forall v p x, (p < length v)%nat -> at_ (set_nth p x v) p = x.
Proof. unfold at_. induction v; destruct p; intros; simpl in *; auto; try lia. apply IHv. lia. Qed.
Lemma at_set_other : forall v p q x, p <> q -> at_ (set_nth p x v) q = at_ v q.
Proof. unfold at_. induction v; destruct p; destruct q; intros; simpl; auto; try congruence. Qed.
Lemma set_set : forall v p x y, set_nth p x (set_nth p y v) = set_nth p x v.
Proof. induction v; destruct p; intros; simpl; auto. f_equal; auto. Qed.
Lemma set_at : forall v p, set_nth p (at_ v p) v = v.
Proof. unfold at_. induction v; destruct p; intros; simpl; auto. f_equal; auto. Qed.

(** Neighbours on the ring *)
Definition nxt (n p : nat) : nat := if (p + 1 =? n)%nat then 0%nat else (p + 1)%nat.
Definition prv (n p : nat) : nat := if (p =? 0)%nat then (n - 1)%nat else (p - 1)%nat.
(** The coding and decoding steps with both operands read from memory *)
Definition estep (key : list Z) (sum : Z) (p : nat) (v : list Z) : list Z :=
  let n := length v in let e := Z.land (Z.shiftr sum 2) 7 in
  set_nth p (add32 (at_ v p) (mx key sum e (at_ v (nxt n p)) (at_ v (prv n p)) p)) v.
Definition dstep (key : list Z) (sum : Z) (p : nat) (v : list Z) : list Z :=
  let n := length v in let e := Z.land (Z.shiftr sum 2) 7 in
  set_nth p (sub32 (at_ v p) (mx key sum e (at_ v (nxt n p)) (at_ v (prv n p)) p)) v.

Lemma estep_length : forall key sum p v, length (estep key sum p v) = length v.
Proof. intros; apply set_nth_length. Qed.
Lemma dstep_length : forall key sum p v, length (dstep key sum p v) = length v.
Proof. intros; apply set_nth_length. Qed.
Lemma words_at : forall v p, words v -> word (at_ v p).
Proof.
  intros v p H. unfold at_. destruct (Nat.lt_ge_cases p (length v)) as [L|L].
  - unfold words in H. rewrite Forall_forall in H. apply H, nth_In; auto.
  - rewrite nth_overflow by auto. unfold word, W32; lia.
Qed.
Lemma words_set : forall v p x, words v -> word x -> words (set_nth p x v).
Proof. unfold words. induction v; destruct p; intros; simpl; auto; inversion H; subst; constructor; auto. Qed.
Lemma word_mod : forall x, word (x mod W32). Proof. intros. unfold word, W32. apply Z.mod_pos_bound. lia. Qed.
Lemma estep_words : forall key sum p v, words v -> words (estep key sum p v).
Proof. intros. apply words_set; auto. apply word_mod. Qed.
Lemma dstep_words : forall key sum p v, words v -> words (dstep key sum p v).
Proof. intros. apply words_set; auto. apply word_mod. Qed.

Lemma sub_add32 : forall a b, word a -> sub32 (add32 a b) b = a.
Proof.
  intros a b H. unfold sub32, add32. rewrite Zminus_mod_idemp_l. replace (a + b - b) with a by lia.
  apply Z.mod_small; auto.
Qed.
Lemma dstep_estep : forall key sum p v, words v -> (2 <= length v)%nat -> (p < length v)%nat ->
  dstep key sum p (estep key sum p v) = v.
Proof.
  intros key sum p v H L P. unfold dstep. rewrite estep_length. unfold estep. set (n := length v).
  set (x := add32 _ _).
  assert (NN : p <> nxt n p) by (unfold nxt; destruct (p + 1 =? n)%nat eqn:E; [apply Nat.eqb_eq in E|]; lia).
  assert (NP : p <> prv n p) by (unfold prv; destruct (p =? 0)%nat eqn:E; [apply Nat.eqb_eq in E|apply Nat.eqb_neq in E]; lia).
  rewrite at_set_same by auto. rewrite !at_set_other by auto.
  unfold x. rewrite sub_add32 by (apply words_at; auto). rewrite set_set. apply set_at.
Qed.

(** The register version is the memory version *)
Lemma enc_inner_fold : forall key sum m k v z, (2 <= length v)%nat -> (k + m <= length v - 1)%nat ->
  z = at_ v (prv (length v) k) ->
  let v' := fold_left (fun v p => estep key sum p v) (seq k m) v in
  fold_left (enc_inner key sum (Z.land (Z.shiftr sum 2) 7)) (seq k m) (v, z) =
    (v', at_ v' (prv (length v) (k + m))).
Proof.
  intros key sum m. induction m as [|m IH]; intros k v z L H HZ; cbv zeta.
  - cbn [seq fold_left]. rewrite Nat.add_0_r. subst z. reflexivity.
  - cbn [seq fold_left]. set (n := length v).
    assert (EI : enc_inner key sum (Z.land (Z.shiftr sum 2) 7) (v, z) k =
                 (estep key sum k v, at_ (estep key sum k v) k)).
    { unfold enc_inner, estep. fold n.
      replace (nxt n k) with (k + 1)%nat by (unfold nxt; replace (k + 1 =? n)%nat with false; auto; symmetry; apply Nat.eqb_neq; fold n in H; lia).
      rewrite at_set_same by (fold n; lia). fold n in HZ. subst z. reflexivity. }
    rewrite EI. rewrite IH.
    + rewrite estep_length. fold n. replace (S k + m)%nat with (k + S m)%nat by lia. reflexivity.
    + rewrite estep_length; auto.
    + rewrite estep_length. fold n. fold n in H. lia.
    + rewrite estep_length. unfold prv. replace (S k =? 0)%nat with false by auto. f_equal. lia.
Qed.

Lemma fold_estep_length : forall key sum l v, length (fold_left (fun v p => estep key sum p v) l v) = length v.
Proof. induction l; intros; simpl; auto. rewrite IHl. apply estep_length. Qed.
Lemma fold_dstep_length : forall key sum l v, length (fold_left (fun v p => dstep key sum p v) l v) = length v.
Proof. induction l; intros; simpl; auto. rewrite IHl. apply dstep_length. Qed.

Definition epass key sum (v : list Z) := fold_left (fun v p => estep key sum p v) (seq 0 (length v)) v.
Definition dpass key sum (v : list Z) := fold_left (fun v p => dstep key sum p v) (rev (seq 0 (length v))) v.
Lemma epass_length : forall key sum v, length (epass key sum v) = length v.
Proof. intros; apply fold_estep_length. Qed.
Lemma dpass_length : forall key sum v, length (dpass key sum v) = length v.
Proof. intros; apply fold_dstep_length. Qed.

Lemma seq_snoc : forall n k, seq k (S n) = seq k n ++ [(k + n)%nat].
Proof. intros. replace (S n) with (n + 1)%nat by lia. apply seq_app. Qed.

Lemma enc_round_epass : forall key sum v, (2 <= length v)%nat ->
  enc_round key sum (v, at_ v (length v - 1)) = (epass key sum v, at_ (epass key sum v) (length v - 1)).
Proof.
  intros key sum v L. unfold enc_round. cbn [fst]. set (n := length v).
  rewrite (enc_inner_fold key sum (n - 1) 0 v) by (unfold n; auto; lia). fold n.
  set (v1 := fold_left _ _ v). cbv beta iota zeta.
  assert (L1 : length v1 = n) by apply fold_estep_length.
  assert (EE : epass key sum v = estep key sum (n - 1) v1).
  { unfold epass. fold n. destruct n as [|n'] eqn:En; [lia|]. rewrite seq_snoc, fold_left_app.
    cbn [fold_left]. unfold v1. replace (S n' - 1)%nat with n' by lia. reflexivity. }
  rewrite EE. unfold estep. rewrite L1.
  replace (nxt n (n - 1)) with 0%nat by (unfold nxt; replace (n - 1 + 1 =? n)%nat with true; auto; symmetry; apply Nat.eqb_eq; lia).
  replace (0 + (n - 1))%nat with (n - 1)%nat by lia.
  rewrite at_set_same by lia. reflexivity.
Qed.

Lemma dec_inner_fold : forall key sum m v y, (2 <= length v)%nat -> (m <= length v - 1)%nat ->
  y = at_ v (nxt (length v) m) ->
  let v' := fold_left (fun v p => dstep key sum p v) (rev (seq 1 m)) v in
  fold_left (dec_inner key sum (Z.land (Z.shiftr sum 2) 7)) (rev (seq 1 m)) (v, y) = (v', at_ v' (nxt (length v) 0)).
Proof.
  intros key sum m. induction m as [|m IH]; intros v y L H HY; cbv zeta.
  - cbn [seq rev fold_left]. subst y. reflexivity.
  - rewrite seq_snoc, rev_app_distr. cbn [rev app fold_left]. set (n := length v).
    assert (EI : dec_inner key sum (Z.land (Z.shiftr sum 2) 7) (v, y) (1 + m) =
                 (dstep key sum (1 + m) v, at_ (dstep key sum (1 + m) v) (1 + m))).
    { unfold dec_inner, dstep. fold n.
      replace (prv n (1 + m)) with (1 + m - 1)%nat by (unfold prv; replace (1 + m =? 0)%nat with false; auto).
      rewrite at_set_same by (fold n; fold n in H; lia). subst y. reflexivity. }
    rewrite EI. rewrite IH.
    + rewrite dstep_length. reflexivity.
    + rewrite dstep_length; auto.
    + rewrite dstep_length. fold n. fold n in H. lia.
    + rewrite dstep_length. fold n. unfold nxt. fold n in H.
      replace (m + 1 =? n)%nat with false by (symmetry; apply Nat.eqb_neq; lia). f_equal. lia.
Qed.
Lemma dec_round_dpass : forall key sum v, (2 <= length v)%nat ->
  dec_round key sum (v, at_ v 0) = (dpass key sum v, at_ (dpass key sum v) 0).
Proof.
  intros key sum v L. unfold dec_round. cbn [fst]. set (n := length v).
  rewrite (dec_inner_fold key sum (n - 1) v).
  2: auto. 2: fold n; lia.
  2:{ unfold nxt. fold n. replace (n - 1 + 1 =? n)%nat with true; auto. symmetry; apply Nat.eqb_eq; lia. }
  fold n. set (v1 := fold_left _ _ v). cbv beta iota zeta.
  assert (L1 : length v1 = n) by apply fold_dstep_length.
  assert (EE : dpass key sum v = dstep key sum 0 v1).
  { unfold dpass. fold n. destruct n as [|n'] eqn:En; [lia|]. cbn [seq rev]. rewrite fold_left_app.
    cbn [fold_left]. unfold v1. replace (S n' - 1)%nat with n' by lia. reflexivity. }
  rewrite EE. unfold dstep. rewrite L1. change (prv n 0) with (n - 1)%nat.
  rewrite at_set_same by lia. reflexivity.
Qed.

Lemma fold_estep_words : forall key sum l v, words v -> words (fold_left (fun v p => estep key sum p v) l v).
Proof. induction l; intros; simpl; auto. apply IHl, estep_words; auto. Qed.
Lemma dfold_efold : forall key sum l v, words v -> (2 <= length v)%nat -> Forall (fun p => (p < length v)%nat) l ->
  fold_left (fun v p => dstep key sum p v) (rev l) (fold_left (fun v p => estep key sum p v) l v) = v.
Proof.
  intros key sum l. induction l as [|p l IH]; intros v H L F; [reflexivity|].
  inversion F; subst. cbn [rev fold_left]. rewrite fold_left_app. cbn [fold_left].
  rewrite IH; [apply dstep_estep; auto|apply estep_words; auto|rewrite estep_length; auto|].
  eapply Forall_impl; [|eassumption]. intros; rewrite estep_length; auto.
Qed.
Lemma dpass_epass : forall key sum v, words v -> (2 <= length v)%nat -> dpass key sum (epass key sum v) = v.
Proof.
  intros key sum v H L. unfold dpass. rewrite epass_length. apply dfold_efold; auto.
  apply Forall_forall. intros x Hx. apply in_seq in Hx. lia.
Qed.

(** Outer loops as folds over the sums *)
Fixpoint esums (r : nat) (sum : Z) : list Z :=
  match r with O => [] | S r => add32 sum DELTA :: esums r (add32 sum DELTA) end.
Lemma enc_rounds_fold : forall r key sum v, (2 <= length v)%nat ->
  fst (enc_rounds r key sum (v, at_ v (length v - 1))) = fold_left (fun v s => epass key s v) (esums r sum) v.
Proof.
  induction r as [|r IH]; intros key sum v L; [reflexivity|]. cbn [enc_rounds esums fold_left].
  rewrite enc_round_epass by auto.
  pose proof (IH key (add32 sum DELTA) (epass key (add32 sum DELTA) v)) as Q. rewrite epass_length in Q. apply Q; auto.
Qed.
Fixpoint dsums (r : nat) (sum : Z) : list Z :=
  match r with O => [] | S r => sum :: dsums r (sub32 sum DELTA) end.
Lemma dec_rounds_fold : forall r key sum v, (2 <= length v)%nat ->
  fst (dec_rounds r key sum (v, at_ v 0)) = fold_left (fun v s => dpass key s v) (dsums r sum) v.
Proof.
  induction r as [|r IH]; intros key sum v L; [reflexivity|]. cbn [dec_rounds dsums fold_left].
  rewrite dec_round_dpass by auto. apply IH. rewrite dpass_length; auto.
Qed.
Lemma esums_nth : forall r s, esums r (s mod W32) = map (fun i => (s + Z.of_nat i * DELTA) mod W32) (seq 1 r).
Proof.
  induction r as [|r IH]; intros s; [reflexivity|]. cbn [esums seq map].
  unfold add32. rewrite Zplus_mod_idemp_l. apply f_equal2; [f_equal; lia|].
  rewrite IH. rewrite <- (seq_shift r 1), map_map. apply map_ext. intros i. f_equal. lia.
Qed.
Lemma dsums_nth : forall r s, dsums r (s mod W32) = map (fun i => (s - Z.of_nat i * DELTA) mod W32) (seq 0 r).
Proof.
  induction r as [|r IH]; intros s; [reflexivity|]. cbn [dsums seq map].
  apply f_equal2; [f_equal; lia|]. unfold sub32. rewrite Zminus_mod_idemp_l.
  rewrite IH. rewrite <- (seq_shift r 0), map_map. apply map_ext. intros i. f_equal. lia.
Qed.
Lemma sums_rev : forall r, dsums r (Z.of_nat r * DELTA mod W32) = rev (esums r 0).
Proof.
  intros r. change 0 with (0 mod W32) at 1. rewrite esums_nth, dsums_nth.
  rewrite <- map_rev.
  assert (SR : rev (seq 1 r) = map (fun i => (r - i)%nat) (seq 0 r)).
  { induction r as [|r IH]; [reflexivity|]. rewrite seq_snoc, rev_app_distr. cbn [rev app seq map].
    f_equal. rewrite IH. rewrite <- (seq_shift r 0), map_map. apply map_ext_in. intros i Hi. apply in_seq in Hi. lia. }
  rewrite SR, map_map. apply map_ext_in. intros i Hi. apply in_seq in Hi. f_equal.
  rewrite Nat2Z.inj_sub by lia. ring.
Qed.

Lemma fold_epass_inv : forall key l v, words v -> (2 <= length v)%nat ->
  words (fold_left (fun v s => epass key s v) l v) /\ length (fold_left (fun v s => epass key s v) l v) = length v.
Proof.
  induction l as [|s l IH]; intros v H L; [auto|]. cbn [fold_left].
  destruct (IH (epass key s v)) as (A & B); [apply fold_estep_words; auto|rewrite epass_length; auto|].
  rewrite epass_length in B. auto.
Qed.
Lemma dpass_epass_fold : forall key l v, words v -> (2 <= length v)%nat ->
  fold_left (fun v s => dpass key s v) (rev l) (fold_left (fun v s => epass key s v) l v) = v.
Proof.
  intros key l. induction l as [|s l IH]; intros v H L; [reflexivity|].
  cbn [rev fold_left]. rewrite fold_left_app. cbn [fold_left]. rewrite IH.
  - apply dpass_epass; auto.
  - apply fold_estep_words; auto.
  - rewrite epass_length; auto.
Qed.

Lemma btea_enc_inv : forall key v, words v -> words (btea false v key) /\ length (btea false v key) = length v.
Proof.
  intros key v H. unfold btea. destruct (length v <=? 1)%nat eqn:E; [auto|]. apply Nat.leb_gt in E.
  rewrite enc_rounds_fold by lia. apply fold_epass_inv; auto.
Qed.
Lemma btea_roundtrip : forall key v, words v -> btea true (btea false v key) key = v.
Proof.
  intros key v H. destruct (btea_enc_inv key v H) as (H1 & H2). unfold btea at 1. rewrite H2.
  destruct (length v <=? 1)%nat eqn:E.
  - unfold btea. rewrite E. reflexivity.
  - pose proof E as E'. apply Nat.leb_gt in E'.
    rewrite dec_rounds_fold by lia. rewrite sums_rev.
    unfold btea. rewrite E. rewrite enc_rounds_fold by lia. apply dpass_epass_fold; auto.
Qed.

(** bytes and words *)
Lemma list_ind4 : forall (P : list Z -> Prop), P [] -> (forall a, P [a]) -> (forall a b, P [a; b]) -> (forall a b c, P [a; b; c]) ->
  (forall a b c d r, P r -> P (a :: b :: c :: d :: r)) -> forall l, P l.
Proof.
  intros P H0 H1 H2 H3 H4 l.
  assert (Q : P l /\ (forall x, P (x :: l)) /\ (forall x y, P (x :: y :: l)) /\ forall x y z, P (x :: y :: z :: l)).
  { induction l as [|z l (Q1 & Q2 & Q3 & Q4)]; [auto|]. repeat split; auto. }
  apply Q.
Qed.
Lemma to_words_ok : forall s, bytes s -> words (to_words s).
Proof.
  intros s. pattern s. apply list_ind4; clear s; try (intros; apply Forall_nil).
  intros a b c d r IH H.
  inversion H as [|? ? A H1]; subst; inversion H1 as [|? ? B H2]; subst; inversion H2 as [|? ? C H3]; subst; inversion H3 as [|? ? D H4]; subst.
  cbn [to_words]. apply Forall_cons; [unfold word, W32, byte in *; lia|apply IH; auto].
Qed.
Lemma of_to_words : forall s, bytes s -> (length s mod 4 = 0)%nat -> of_words (to_words s) = s.
Proof.
  intros s. pattern s. apply list_ind4; clear s; try (intros; simpl in *; discriminate || reflexivity).
  intros a b c d r IH H L.
  inversion H as [|? ? A H1]; subst; inversion H1 as [|? ? B H2]; subst; inversion H2 as [|? ? C H3]; subst; inversion H3 as [|? ? D H4]; subst.
  cbn [to_words of_words flat_map]. fold (of_words (to_words r)). rewrite IH; auto.
  2:{ cbn [length] in L. replace (S (S (S (S (length r))))) with (length r + 1 * 4)%nat in L by lia. rewrite Nat.mod_add in L by lia. auto. }
  unfold word_bytes, byte in *. cbn [app].
  set (w := a + b * 256 + c * 65536 + d * 16777216).
  replace (w mod 256) with a by (unfold w; Z.div_mod_to_equations; lia).
  replace (w / 256 mod 256) with b by (unfold w; Z.div_mod_to_equations; lia).
  replace (w / 65536 mod 256) with c by (unfold w; Z.div_mod_to_equations; lia).
  replace (w / 16777216 mod 256) with d by (unfold w; Z.div_mod_to_equations; lia). reflexivity.
Qed.
Lemma to_of_words : forall v, words v -> to_words (of_words v) = v.
Proof.
  induction v as [|w v IH]; intros H; [reflexivity|]. inversion H; subst.
  cbn [of_words flat_map word_bytes app to_words]. fold (of_words v). rewrite IH by auto. f_equal.
  unfold word, W32 in *. Z.div_mod_to_equations; lia.
Qed.
Lemma of_words_length : forall v, length (of_words v) = (4 * length v)%nat.
Proof. induction v; [reflexivity|]. cbn [of_words flat_map]. fold (of_words v). rewrite app_length, IHv. simpl. lia. Qed.
Lemma of_words_bytes : forall v, bytes (of_words v).
Proof.
  induction v; [constructor|]. cbn [of_words flat_map word_bytes app]. fold (of_words v).
  repeat (apply Forall_cons; [unfold byte; apply Z.mod_pos_bound; lia|]). apply IHv.
Qed.
Lemma to_words_length : forall s, (length s mod 4 = 0 -> 4 * length (to_words s) = length s)%nat.
Proof.
  intros s. pattern s. apply list_ind4; clear s; try (intros; simpl in *; discriminate || reflexivity).
  intros a b c d r IH L. cbn [to_words length].
  cbn [length] in L. replace (S (S (S (S (length r))))) with (length r + 1 * 4)%nat in L by lia. rewrite Nat.mod_add in L by lia.
  specialize (IH L). lia.
Qed.

Lemma pad_len : forall n, (n + (4 - n mod 4) mod 4 = 4 * ((n + 3) / 4))%nat.
Proof.
  intros n. pose proof (Nat.mod_upper_bound n 4 ltac:(lia)) as U.
  pose proof (Nat.div_mod n 4 ltac:(lia)) as D.
  remember (n mod 4)%nat as k. remember (n / 4)%nat as q. rewrite D.
  destruct k as [|[|[|[|k]]]]; try lia.
  - replace (4 * q + 0 + 3)%nat with (3 + q * 4)%nat by lia. rewrite Nat.div_add by lia. cbn; lia.
  - replace (4 * q + 1 + 3)%nat with (4 + q * 4)%nat by lia. rewrite Nat.div_add by lia. cbn; lia.
  - replace (4 * q + 2 + 3)%nat with (5 + q * 4)%nat by lia. rewrite Nat.div_add by lia. cbn; lia.
  - replace (4 * q + 3 + 3)%nat with (6 + q * 4)%nat by lia. rewrite Nat.div_add by lia. cbn; lia.
Qed.

(** * C15 *)
(** Decrypting with the same key gives the data back: all data of two or more bytes, all keys. *)
Theorem encrypt_decrypt_roundtrip : forall key s, bytes s -> (2 <= length s)%nat -> Z.of_nat (length s) < 2147483648 ->
  exists c, crypt_encrypt key s = Some c /\ crypt_decrypt key c = Some s.
Proof.
  intros key s HB HL HM. unfold crypt_encrypt.
  replace (length s <? 2)%nat with false by (symmetry; apply Nat.ltb_ge; auto). cbv zeta.
  set (pad := ((4 - length s mod 4) mod 4)%nat). set (buf := s ++ repeat 0 pad).
  eexists; split; [reflexivity|].
  assert (Hpad : (pad < 4)%nat) by (apply Nat.mod_upper_bound; lia).
  assert (LB : (length buf mod 4 = 0)%nat).
  { unfold buf. rewrite app_length, repeat_length. unfold pad. rewrite pad_len, Nat.mul_comm. apply Nat.mod_mul; lia. }
  assert (BB : bytes buf).
  { unfold buf, bytes. apply Forall_app. split; auto. apply Forall_forall. intros x Hx. apply repeat_spec in Hx. subst. unfold byte; lia. }
  set (w := to_words buf). assert (WW : words w) by (apply to_words_ok; auto).
  destruct (btea_enc_inv key w WW) as (EW & EL). set (cw := btea false w key) in *.
  assert (LW : (4 * length w = length buf)%nat) by (apply to_words_length; auto).
  assert (LC : length (of_words cw) = length buf) by (rewrite of_words_length; lia).
  assert (LBs : length buf = (length s + pad)%nat) by (unfold buf; rewrite app_length, repeat_length; auto).
  unfold crypt_decrypt. rewrite app_length, LC. cbn [length].
  replace (length buf + 1 <? 2)%nat with false by (symmetry; apply Nat.ltb_ge; lia). cbv zeta.
  replace (length buf + 1 - 1)%nat with (length buf) by lia.
  unfold at_. rewrite app_nth2 by lia. rewrite LC, Nat.sub_diag. cbn [nth].
  replace (Z.of_nat pad <? 128) with true by (symmetry; apply Z.ltb_lt; lia).
  replace (firstn (length buf) (of_words cw ++ [Z.of_nat pad])) with (of_words cw).
  2:{ rewrite <- LC, firstn_app, Nat.sub_diag, firstn_O, app_nil_r, firstn_all. auto. }
  rewrite LB. cbn [Nat.eqb negb]. rewrite to_of_words by auto.
  unfold cw. rewrite btea_roundtrip by auto. unfold w. rewrite of_to_words by auto.
  replace ((Z.of_nat (length buf) - Z.of_nat pad)) with (Z.of_nat (length s)) by lia.
  rewrite Z.mod_small by (unfold W32; lia).
  replace (Z.of_nat (length s) <? 2147483648) with true by (symmetry; apply Z.ltb_lt; lia).
  replace (Z.of_nat (length s) <? 0) with false by (symmetry; apply Z.ltb_ge; lia).
  rewrite Nat2Z.id. unfold buf. rewrite firstn_app, Nat.sub_diag, firstn_O, app_nil_r, firstn_all. reflexivity.
Qed.

(** Two different plaintexts never give the same ciphertext under one key. *)
Theorem encrypt_injective : forall key s t c, bytes s -> bytes t ->
  Z.of_nat (length s) < 2147483648 -> Z.of_nat (length t) < 2147483648 ->
  crypt_encrypt key s = Some c -> crypt_encrypt key t = Some c -> s = t.
Proof.
  intros key s t c HS HT LS LT ES ET.
  assert (2 <= length s)%nat by (unfold crypt_encrypt in ES; destruct (length s <? 2)%nat eqn:Q; [discriminate|apply Nat.ltb_ge in Q; auto]).
  assert (2 <= length t)%nat by (unfold crypt_encrypt in ET; destruct (length t <? 2)%nat eqn:Q; [discriminate|apply Nat.ltb_ge in Q; auto]).
  destruct (encrypt_decrypt_roundtrip key s) as (c1 & E1 & D1); auto.
  destruct (encrypt_decrypt_roundtrip key t) as (c2 & E2 & D2); auto. congruence.
Qed.
(** The ciphertext is made of bytes and is the padded length plus one. *)
Theorem encrypt_length : forall key s c, bytes s -> crypt_encrypt key s = Some c ->
  bytes c /\ (length c = 4 * ((length s + 3) / 4) + 1)%nat.
Proof.
  intros key s c HB E. unfold crypt_encrypt in E. destruct (length s <? 2)%nat; [discriminate|]. cbv zeta in E.
  set (pad := ((4 - length s mod 4) mod 4)%nat) in *. injection E as <-.
  assert (Hpad : (pad < 4)%nat) by (apply Nat.mod_upper_bound; lia).
  assert (PL : (length s + pad = 4 * ((length s + 3) / 4))%nat).
  { apply pad_len. }
  assert (BB : bytes (s ++ repeat 0 pad)).
  { unfold bytes. apply Forall_app. split; auto. apply Forall_forall. intros x Hx. apply repeat_spec in Hx. subst. unfold byte; lia. }
  destruct (btea_enc_inv key _ (to_words_ok _ BB)) as (_ & EL).
  split.
  - apply Forall_app. split; [apply of_words_bytes|]. repeat constructor; lia.
  - rewrite app_length, of_words_length, EL. cbn [length]. rewrite to_words_length.
    + rewrite app_length, repeat_length. lia.
    + rewrite app_length, repeat_length, PL, Nat.mul_comm. apply Nat.mod_mul. lia.
Qed.
(** Data of two to four bytes is not encrypted at all: the ciphertext begins with the plaintext,
    whatever the key. *)
Theorem encrypt_short_in_the_clear_refuted : forall key s, bytes s -> (2 <= length s <= 4)%nat ->
  exists r, crypt_encrypt key s = Some (s ++ r).
Proof.
  intros key s HB HL. unfold bytes in HB.
  destruct s as [|a [|b [|c [|d [|e s]]]]]; cbn [length] in HL; try lia;
  repeat match goal with H : Forall _ (_ :: _) |- _ => inversion H; clear H; subst end.
  all: unfold crypt_encrypt; cbn [length Nat.ltb Nat.leb Nat.modulo Nat.divmod fst snd Nat.sub repeat app to_words btea];
    cbv zeta; cbn [of_words flat_map app]; unfold word_bytes.
  all: eexists; f_equal.
  all: cbn [app]; repeat match goal with |- ?x :: _ = ?y :: _ => apply f_equal2; [unfold byte in *; Z.div_mod_to_equations; lia|] end; reflexivity.
Qed.
Example encrypt_ex : let key := [1;2;3;4;5;6;7;8] in
  exists c, crypt_encrypt key [104;101;108;108;111] = Some c /\ firstn 5 c <> [104;101;108;108;111] /\
    crypt_decrypt key c = Some [104;101;108;108;111].
Proof. eexists. split; [vm_compute; reflexivity|]. split; [discriminate|vm_compute; reflexivity]. Qed.
Print Assumptions encrypt_decrypt_roundtrip.
Print Assumptions encrypt_injective.
Print Assumptions encrypt_length.
Print Assumptions encrypt_short_in_the_clear_refuted.
