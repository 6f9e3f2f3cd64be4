(** Lemmas for SHA-3 and the hash command. *)
From Coq Require Import ZArith List Bool Lia.
Import ListNotations.
From Verif Require Import Bits UtfModel CodecSpec XxteaModel DigestModel DigestSpec DigestProofs DigestProofs2.
Local Open Scope Z_scope.

Ltac list25 st := do 25 (destruct st as [|? st]; [discriminate|]); destruct st; [|discriminate].

Lemma k_theta_eq : forall st, length st = 25%nat -> k_theta st = theta st.
Proof.
  intros st HL. list25 st. cbv - [Z.lxor Z.land Z.lor Z.shiftl Z.shiftr Z.modulo]. reflexivity.
Qed.
Lemma k_rhopi_eq : forall st, length st = 25%nat -> k_rhopi st = pi (rho st).
Proof.
  intros st HL. list25 st. cbv - [Z.lxor Z.land Z.lor Z.shiftl Z.shiftr Z.modulo]. reflexivity.
Qed.
Lemma k_chi_eq : forall st, length st = 25%nat -> k_chi st = chi st.
Proof.
  intros st HL. list25 st. cbv - [Z.lxor Z.land Z.lor Z.shiftl Z.shiftr Z.modulo]. reflexivity.
Qed.
Lemma lanes_len : forall f, length (lanes f) = 25%nat.
Proof. intros. unfold lanes. rewrite map_length. reflexivity. Qed.
Lemma k_round_eq : forall st rc, length st = 25%nat -> k_round st rc = iota (chi (pi (rho (theta st)))) rc.
Proof.
  intros st rc HL. unfold k_round. rewrite k_theta_eq by auto. rewrite k_rhopi_eq by apply lanes_len.
  rewrite k_chi_eq by apply lanes_len. cbv zeta.
  assert (L : length (chi (pi (rho (theta st)))) = 25%nat) by apply lanes_len.
  revert L. generalize (chi (pi (rho (theta st)))). intros s L. list25 s. reflexivity.
Qed.
Lemma rndc_eq : keccakf_rndc = map round_constant (seq 0 24).
Proof. vm_compute. reflexivity. Qed.
Lemma fold_map_inv : forall (A B C : Type) (f : A -> B -> A) (g : A -> C -> A) (h : C -> B) (P : A -> Prop),
  (forall a c, P a -> f a (h c) = g a c /\ P (g a c)) ->
  forall l a, P a -> fold_left f (map h l) a = fold_left g l a /\ P (fold_left g l a).
Proof.
  intros A B C f g h P H. induction l as [|c l IH]; intros a Ha; cbn [map fold_left]; auto.
  destruct (H a c Ha) as (-> & Hg). apply IH. exact Hg.
Qed.
Lemma keccak_eq : forall st, length st = 25%nat -> fold_left k_round keccakf_rndc st = keccak_f st /\ length (keccak_f st) = 25%nat.
Proof.
  intros st HL. rewrite rndc_eq. unfold keccak_f.
  apply (fold_map_inv _ _ _ k_round (fun A ir => iota (chi (pi (rho (theta A)))) (round_constant ir)) round_constant (fun s => length s = 25%nat)); auto.
  intros a c Ha. split; [apply k_round_eq; auto|apply lanes_len].
Qed.
Local Opaque keccak_f k_round.
Definition rate_ok (r : nat) : Prop := r = 144%nat \/ r = 136%nat \/ r = 104%nat \/ r = 72%nat.
Lemma xor_eq : forall n st (f : nat -> Z), length st = 25%nat -> (n <= 25)%nat ->
  fold_left (fun st i => set_nth i (Z.lxor (at_ st i) (f i)) st) (seq 0 n) st =
  map (fun i => Z.lxor (nth i st 0) (if (i <? n)%nat then f i else 0)) (seq 0 25).
Proof.
  intros n st f HL. induction n as [|n IH]; intros Hn.
  - cbn [seq fold_left]. list25 st. cbn [seq map nth Nat.ltb Nat.leb]. rewrite !Z.lxor_0_r. reflexivity.
  - rewrite seq_S, fold_left_app, IH by lia. cbn [Nat.add fold_left].
    apply (nth_ext _ _ 0 0).
    + rewrite set_nth_len, !map_length, !seq_length. reflexivity.
    + intros i Hi. rewrite set_nth_len, map_length, seq_length in Hi.
      assert (M : forall g : nat -> Z, nth i (map g (seq 0 25)) 0 = g i).
      { intros g. rewrite (nth_indep _ 0 (g 0%nat)) by (rewrite map_length, seq_length; auto).
        rewrite map_nth, seq_nth by auto. reflexivity. }
      assert (M2 : forall (g : nat -> Z), nth n (map g (seq 0 25)) 0 = g n).
      { intros g. rewrite (nth_indep _ 0 (g 0%nat)) by (rewrite map_length, seq_length; lia).
        rewrite map_nth, seq_nth by lia. reflexivity. }
      rewrite M. unfold at_. rewrite M2.
      rewrite Nat.ltb_irrefl, Z.lxor_0_r.
      assert (SN : forall l k v, nth i (set_nth k v l) 0 = if (i =? k)%nat then (if (k <? length l)%nat then v else 0) else nth i l 0).
      { clear. intros l. revert i. induction l as [|x l IHl]; intros i k v.
        - replace (set_nth k v []) with (@nil Z) by (destruct k; auto). destruct (i =? k)%nat; destruct i; reflexivity.
        - destruct k as [|k]; destruct i as [|i]; cbn [set_nth nth Nat.eqb length]; auto. rewrite IHl.
          destruct (i =? k)%nat; auto. }
      rewrite SN, M, map_length, seq_length. replace (n <? 25)%nat with true by (symmetry; apply Nat.ltb_lt; lia).
      destruct (i =? n)%nat eqn:Q; [apply Nat.eqb_eq in Q|apply Nat.eqb_neq in Q].
      * subst i. replace (n <? S n)%nat with true by (symmetry; apply Nat.ltb_lt; lia). reflexivity.
      * destruct (i <? n)%nat eqn:Q1; [apply Nat.ltb_lt in Q1|apply Nat.ltb_ge in Q1].
        { replace (i <? S n)%nat with true by (symmetry; apply Nat.ltb_lt; lia). reflexivity. }
        { replace (i <? S n)%nat with false by (symmetry; apply Nat.ltb_ge; lia). reflexivity. }
Qed.
Lemma firstn_firstn_skip : forall (l : list Z) r i, (i + 8 <= r)%nat -> firstn 8 (skipn i (firstn r l)) = firstn 8 (skipn i l).
Proof.
  intros l r i H. rewrite skipn_firstn_comm, firstn_firstn. f_equal. lia.
Qed.
Lemma sha3_transform_eq : forall r st blk, rate_ok r -> length st = 25%nat -> (r <= length blk)%nat ->
  sha3_transform r st blk = absorb st (firstn r blk) /\ length (absorb st (firstn r blk)) = 25%nat.
Proof.
  intros r st blk HR HS HB. unfold sha3_transform, absorb.
  assert (HD : exists n, r = (8 * n)%nat /\ (n <= 25)%nat /\ (r / 8 = n)%nat).
  { destruct HR as [-> |[-> |[-> | ->]]]; [exists 18%nat|exists 17%nat|exists 13%nat|exists 9%nat]; repeat split; lia. }
  destruct HD as (n & HN & LN & DN). rewrite DN. rewrite xor_eq by auto.
  match goal with |- fold_left _ _ ?a = keccak_f ?b /\ _ => assert (E : a = b) end.
  { apply map_ext_in. intros i Hi. apply in_seq in Hi. f_equal.
    assert (LB : length (blocks 8 (firstn r blk)) = n) by (apply blocks_len; [lia|rewrite firstn_length_le; lia]).
    destruct (i <? n)%nat eqn:Q; [apply Nat.ltb_lt in Q|apply Nat.ltb_ge in Q].
    - rewrite (nth_indep _ 0 (from_le [])) by (rewrite map_length; lia). rewrite map_nth. unfold blocks.
      rewrite (nth_indep _ [] (firstn 8 (skipn (8 * 0) (firstn r blk)))) by (rewrite map_length, seq_length, firstn_length_le by lia; rewrite DN; lia).
      rewrite (map_nth (fun i => firstn 8 (skipn (8 * i) (firstn r blk)))), seq_nth.
      2:{ rewrite firstn_length_le by lia. rewrite DN. lia. }
      cbn [Nat.add]. rewrite firstn_firstn_skip by lia. reflexivity.
    - rewrite nth_overflow; auto. rewrite map_length. lia. }
  rewrite E. apply keccak_eq. rewrite map_length, seq_length. reflexivity.
Qed.
Local Opaque absorb.
(** The content of the block buffer beyond the bytes of the current block: what the last complete block left *)
Definition leftover (rate : nat) (msg : list Z) : list Z := last (blocks rate msg) (repeat 0 rate).

Definition sha3_inv (rate dg : nat) (msg : list Z) (c : sha3_ctx) : Prop :=
  exists whole rest q, msg = whole ++ rest /\ length whole = (rate * q)%nat /\ (length rest < rate)%nat /\
    k_blklen c = rate /\ k_dgstlen c = dg /\ k_index c = length rest /\ length (k_state c) = 25%nat /\
    k_state c = fold_left absorb (blocks rate whole) (repeat 0 25) /\ (rate <= length (k_blk c))%nat /\
    firstn rate (k_blk c) = rest ++ skipn (length rest) (last (blocks rate whole) (repeat 0 rate)).
Lemma sha3_inv_init : forall t, sha3_inv (fst (sha3_params t)) (snd (sha3_params t)) [] (sha3_init t).
Proof.
  intros t. exists [], [], 0%nat. rewrite blocks_nil. unfold sha3_init. cbn [k_state k_index k_dgstlen k_blklen k_blk length app].
  assert (H : (fst (sha3_params t) <= 256 /\ 0 < fst (sha3_params t))%nat).
  { unfold sha3_params. destruct (t =? 0), (t =? 2), (t =? 3); cbn [fst]; lia. }
  repeat split; auto; try lia.
  - rewrite repeat_length. lia.
  - cbn [skipn last]. replace 256%nat with (fst (sha3_params t) + (256 - fst (sha3_params t)))%nat by lia.
    rewrite repeat_app, firstn_app, repeat_length, Nat.sub_diag, firstn_O, app_nil_r. apply firstn_all2. rewrite repeat_length. lia.
Qed.
Lemma last_len : forall rate q whole, (0 < rate)%nat -> length whole = (rate * q)%nat ->
  length (last (blocks rate whole) (repeat 0 rate)) = rate.
Proof.
  intros rate q whole HR HL. destruct (blocks rate whole) eqn:E using rev_ind.
  - cbn. apply repeat_length.
  - rewrite last_last. destruct (blocks_In rate q whole x HR HL) as (L & _); auto. rewrite E. apply in_or_app. right. left. auto.
Qed.
Lemma copy_firstn : forall rate i src d, (i + length src <= rate <= length d)%nat ->
  firstn rate (copy_at i src d) = copy_at i src (firstn rate d).
Proof.
  intros rate i src d H. rewrite !copy_at_eq by (rewrite ?firstn_length_le; lia).
  rewrite firstn_firstn, Nat.min_l by lia. rewrite skipn_firstn_comm.
  assert (L : length (firstn i d) = i) by (apply firstn_length_le; lia).
  rewrite app_assoc, firstn_app, app_length, L. rewrite (firstn_all2 (firstn i d ++ src)) by (rewrite app_length; lia).
  rewrite <- app_assoc. reflexivity.
Qed.
Lemma sha3_loop_inv : forall rate, rate_ok rate -> forall fuel st blk p whole rest q,
  (length p < fuel)%nat -> length whole = (rate * q)%nat -> (length rest < rate)%nat -> length st = 25%nat ->
  st = fold_left absorb (blocks rate whole) (repeat 0 25) -> (rate <= length blk)%nat ->
  firstn rate blk = rest ++ skipn (length rest) (last (blocks rate whole) (repeat 0 rate)) ->
  exists st' blk' whole' rest' q', sha3_loop fuel rate st blk (length rest) p = (st', blk', length rest') /\
    whole ++ rest ++ p = whole' ++ rest' /\ length whole' = (rate * q')%nat /\ (length rest' < rate)%nat /\ length st' = 25%nat /\
    st' = fold_left absorb (blocks rate whole') (repeat 0 25) /\ (rate <= length blk')%nat /\
    firstn rate blk' = rest' ++ skipn (length rest') (last (blocks rate whole') (repeat 0 rate)).
Proof.
  intros rate HR. assert (R0 : (0 < rate)%nat) by (destruct HR as [-> |[-> |[-> | ->]]]; lia).
  induction fuel as [|f IH]; intros st blk p whole rest q HF LW LR LS HS LB HB; [lia|].
  cbn [sha3_loop]. set (r := Nat.min (rate - length rest) (length p)).
  assert (LP : length (firstn r p) = r) by (apply firstn_length_le; lia).
  assert (LL := last_len rate q whole R0 LW). set (old := last (blocks rate whole) (repeat 0 rate)) in *.
  assert (CB : firstn rate (copy_at (length rest) (firstn r p) blk) = rest ++ firstn r p ++ skipn (length rest + r) old).
  { rewrite copy_firstn by lia. rewrite HB.
    rewrite copy_at_eq by (rewrite app_length, skipn_length; lia).
    rewrite firstn_app, Nat.sub_diag, firstn_O, app_nil_r, firstn_all, LP. do 2 f_equal.
    rewrite skipn_app, (skipn_all2 rest) by lia. cbn [app]. rewrite skipn_skipn'. f_equal. lia. }
  destruct (length rest + r <? rate)%nat eqn:Q.
  - apply Nat.ltb_lt in Q. assert (r = length p) by lia.
    exists st, (copy_at (length rest) (firstn r p) blk), whole, (rest ++ p), q.
    rewrite app_length. repeat split; auto; try lia.
    + rewrite copy_at_len. lia.
    + rewrite CB, H. rewrite firstn_all, <- app_assoc. reflexivity.
  - apply Nat.ltb_ge in Q.
    set (blk1 := copy_at (length rest) (firstn r p) blk) in *.
    assert (FB : firstn rate blk1 = rest ++ firstn r p).
    { rewrite CB. rewrite (skipn_all2 old) by lia. rewrite app_nil_r. reflexivity. }
    assert (LB1 : (rate <= length blk1)%nat) by (unfold blk1; rewrite copy_at_len; auto).
    destruct (sha3_transform_eq rate st blk1 HR LS LB1) as (TE & TL). rewrite TE. rewrite FB in *.
    assert (LF : length (rest ++ firstn r p) = rate) by (rewrite app_length; lia).
    destruct (IH (absorb st (rest ++ firstn r p)) blk1 (skipn r p) (whole ++ rest ++ firstn r p) [] (S q))
      as (st' & blk' & w' & r' & q' & E & M & REST).
    + rewrite skipn_length. lia.
    + rewrite app_length. lia.
    + cbn; lia.
    + auto.
    + rewrite (blocks_app rate q) by auto. rewrite (blocks_one rate (rest ++ firstn r p)) by auto. rewrite fold_left_app, fl_cons, fl_nil. congruence.
    + auto.
    + cbn [length skipn app]. rewrite (blocks_app rate q) by auto. rewrite (blocks_one rate (rest ++ firstn r p)) by auto. rewrite last_last. auto.
    + exists st', blk', w', r', q'. cbn [length] in E. split; [exact E|]. split; [|exact REST].
      rewrite <- M. cbn [app]. rewrite <- !app_assoc. do 2 f_equal. symmetry. apply firstn_skipn.
Qed.
Lemma sha3_inv_update : forall rate dg msg c msg2, rate_ok rate -> sha3_inv rate dg msg c -> sha3_inv rate dg (msg ++ msg2) (sha3_update c msg2).
Proof.
  intros rate dg msg c msg2 HR (whole & rest & q & EM & LW & LR & BL & DL & IX & LS & ST & LB & FB).
  unfold sha3_update. rewrite BL, IX.
  destruct (sha3_loop_inv rate HR (S (length msg2)) (k_state c) (k_blk c) msg2 whole rest q) as (st' & blk' & w' & r' & q' & E & M & A1 & A2 & A3 & A4 & A5 & A6); auto.
  rewrite E. exists w', r', q'. cbn [k_state k_index k_dgstlen k_blklen k_blk]. rewrite EM, <- app_assoc. repeat split; auto.
Qed.
Lemma sha3_inv_chunks : forall rate dg chunks msg c, rate_ok rate -> sha3_inv rate dg msg c ->
  sha3_inv rate dg (msg ++ concat chunks) (fold_left sha3_update chunks c).
Proof.
  intros rate dg. induction chunks as [|x r IH]; intros msg c HR H; cbn [fold_left concat].
  - rewrite app_nil_r. auto.
  - rewrite app_assoc. apply IH; auto. apply sha3_inv_update; auto.
Qed.
(** The last block as the code builds it *)
Definition final_block (rate : nat) (rest old : list Z) : list Z :=
  let b := rest ++ 6 :: skipn (S (length rest)) old in
  firstn (rate - 1) b ++ [Z.lor (nth (rate - 1) b 0) 128].
Lemma sha3_final_eq : forall rate dg msg c, rate_ok rate -> sha3_inv rate dg msg c ->
  exists whole rest q, msg = whole ++ rest /\ length whole = (rate * q)%nat /\ (length rest < rate)%nat /\
  sha3_final c = firstn dg (flat_map (little_endian 8)
     (absorb (fold_left absorb (blocks rate whole) (repeat 0 25)) (final_block rate rest (last (blocks rate whole) (repeat 0 rate))))).
Proof.
  intros rate dg msg c HR (whole & rest & q & EM & LW & LR & BL & DL & IX & LS & ST & LB & FB).
  exists whole, rest, q. repeat (split; [solve [auto]|]).
  unfold sha3_final. rewrite BL, DL, IX.
  assert (R0 : (0 < rate)%nat) by (destruct HR as [-> |[-> |[-> | ->]]]; lia).
  assert (LL := last_len rate q whole R0 LW). set (old := last (blocks rate whole) (repeat 0 rate)) in *.
  set (b1 := set_nth (length rest) 6 (k_blk c)).
  assert (L1 : (rate <= length b1)%nat) by (unfold b1; rewrite set_nth_len; auto).
  set (b2 := set_nth (rate - 1) (Z.lor (at_ b1 (rate - 1)) 128) b1).
  assert (L2 : (rate <= length b2)%nat) by (unfold b2; rewrite set_nth_len; auto).
  destruct (sha3_transform_eq rate (k_state c) b2 HR LS L2) as (TE & TL). 
  assert (F1 : firstn rate b1 = rest ++ 6 :: skipn (S (length rest)) old).
  { unfold b1. change (set_nth (length rest) 6 (k_blk c)) with (copy_at (length rest) [6] (k_blk c)).
    rewrite copy_firstn by (cbn [length]; lia). rewrite FB. rewrite copy_at_eq by (rewrite app_length, skipn_length; cbn [length]; lia).
    rewrite firstn_app, Nat.sub_diag, firstn_O, app_nil_r, firstn_all. f_equal. cbn [app length]. f_equal.
    rewrite skipn_app, (skipn_all2 rest) by lia. cbn [app]. rewrite skipn_skipn'. f_equal. lia. }
  assert (F2 : firstn rate b2 = final_block rate rest old).
  { unfold final_block. cbv zeta. rewrite <- F1. unfold b2.
    change (set_nth (rate - 1) (Z.lor (at_ b1 (rate - 1)) 128) b1) with (copy_at (rate - 1) [Z.lor (at_ b1 (rate - 1)) 128] b1).
    rewrite copy_firstn by (cbn [length]; lia). rewrite copy_at_eq by (rewrite firstn_length_le by lia; cbn [length]; lia).
    rewrite firstn_firstn, Nat.min_l by lia. f_equal. rewrite skipn_all2 by (rewrite firstn_length_le by lia; cbn [length]; lia).
    rewrite app_nil_r. do 2 f_equal. unfold at_. rewrite <- (firstn_skipn rate b1) at 1. rewrite app_nth1; auto.
    rewrite firstn_length_le; lia. }
  rewrite TE, F2, ST. rewrite (flat_map_ext' le_bytes64 (little_endian 8)) by reflexivity. reflexivity.
Qed.
(** Uniqueness of the division into whole blocks and rest *)
Lemma split_unique : forall rate (w1 r1 w2 r2 : list Z) q1 q2, w1 ++ r1 = w2 ++ r2 ->
  length w1 = (rate * q1)%nat -> length w2 = (rate * q2)%nat -> (length r1 < rate)%nat -> (length r2 < rate)%nat -> w1 = w2 /\ r1 = r2.
Proof.
  intros rate w1 r1 w2 r2 q1 q2 E L1 L2 R1 R2.
  assert (q1 = q2).
  { assert (EL : (length w1 + length r1 = length w2 + length r2)%nat) by (rewrite <- !app_length, E; auto).
    rewrite L1, L2 in EL.
    assert (A : ((rate * q1 + length r1) / rate = q1)%nat) by (symmetry; apply (Nat.div_unique _ rate q1 (length r1)); lia).
    assert (B : ((rate * q2 + length r2) / rate = q2)%nat) by (symmetry; apply (Nat.div_unique _ rate q2 (length r2)); lia).
    rewrite EL in A. lia. }
  subst q2. assert (w1 = w2).
  { assert (H : firstn (length w1) (w1 ++ r1) = firstn (length w1) (w2 ++ r2)) by (rewrite E; auto).
    rewrite firstn_app, Nat.sub_diag, firstn_O, app_nil_r, firstn_all in H.
    rewrite L1, <- L2, firstn_app, Nat.sub_diag, firstn_O, app_nil_r, firstn_all in H. auto. }
  subst. split; auto. apply app_inv_head in E. auto.
Qed.
Lemma params_ok : forall t, rate_ok (fst (sha3_params t)).
Proof. intros. unfold sha3_params, rate_ok. destruct (t =? 0), (t =? 2), (t =? 3); cbn [fst]; auto. Qed.
Lemma sha3_digest_eq : forall t chunks, 
  exists whole rest q, concat chunks = whole ++ rest /\ length whole = (fst (sha3_params t) * q)%nat /\ (length rest < fst (sha3_params t))%nat /\
  sha3_chunks t chunks = firstn (snd (sha3_params t)) (flat_map (little_endian 8)
     (absorb (fold_left absorb (blocks (fst (sha3_params t)) whole) (repeat 0 25))
        (final_block (fst (sha3_params t)) rest (last (blocks (fst (sha3_params t)) whole) (repeat 0 (fst (sha3_params t))))))).
Proof.
  intros t chunks. unfold sha3_chunks. apply sha3_final_eq; [apply params_ok|].
  change (concat chunks) with ([] ++ concat chunks). apply sha3_inv_chunks; [apply params_ok|]. apply sha3_inv_init.
Qed.
Lemma sha3_chunking_ok : forall t c1 c2, concat c1 = concat c2 -> sha3_chunks t c1 = sha3_chunks t c2.
Proof.
  intros t c1 c2 H. destruct (sha3_digest_eq t c1) as (w1 & r1 & q1 & E1 & A1 & B1 & ->).
  destruct (sha3_digest_eq t c2) as (w2 & r2 & q2 & E2 & A2 & B2 & ->).
  destruct (split_unique (fst (sha3_params t)) w1 r1 w2 r2 q1 q2) as (-> & ->); auto. congruence.
Qed.
Lemma skipn_repeat : forall (x : Z) n k, skipn k (repeat x n) = repeat x (n - k).
Proof. intros x n. induction n as [|n IH]; intros [|k]; cbn [repeat skipn Nat.sub]; auto. Qed.
Lemma final_block_ok : forall rate rest old, (2 <= rate)%nat -> (length rest < rate)%nat ->
  skipn (S (length rest)) old = repeat 0 (rate - S (length rest)) ->
  final_block rate rest old = pad3 rate rest.
Proof.
  intros rate rest old HR HL HO. unfold final_block, pad3. rewrite HO. cbv zeta. rewrite Nat.mod_small by auto.
  destruct (rate - length rest)%nat as [|[|k]] eqn:Q; [lia| |].
  - replace (rate - S (length rest))%nat with 0%nat by lia. cbn [repeat].
    replace (rate - 1)%nat with (length rest) by lia.
    rewrite firstn_app, Nat.sub_diag, firstn_O, app_nil_r, firstn_all. rewrite app_nth2, Nat.sub_diag by lia. reflexivity.
  - replace (rate - S (length rest))%nat with (S k) by lia. replace (S (S k) - 2)%nat with k by lia.
    replace (repeat 0 (S k)) with (repeat 0 k ++ [0]) by (symmetry; apply repeat_cons). replace (rest ++ 6 :: repeat 0 k ++ [0]) with ((rest ++ 6 :: repeat 0 k) ++ [0]) by (rewrite <- app_assoc; reflexivity).
    assert (LX : length (rest ++ 6 :: repeat 0 k) = (rate - 1)%nat) by (rewrite app_length; cbn [length]; rewrite repeat_length; lia).
    rewrite firstn_app, LX, Nat.sub_diag, firstn_O, app_nil_r, firstn_all2 by lia.
    rewrite app_nth2, LX, Nat.sub_diag by lia. rewrite <- app_assoc. reflexivity.
Qed.
(** SHA-3 of a message shorter than a block *)
Lemma sha3_short_ok : forall t chunks, (length (concat chunks) < fst (sha3_params t))%nat ->
  sha3_chunks t chunks = SHA3_spec (snd (sha3_params t)) (concat chunks).
Proof.
  intros t chunks HL. destruct (sha3_digest_eq t chunks) as (w & r & q & E & A & B & ->).
  assert (PR : fst (sha3_params t) = (200 - 2 * snd (sha3_params t))%nat /\ (2 <= fst (sha3_params t))%nat).
  { unfold sha3_params. destruct (t =? 0), (t =? 2), (t =? 3); cbn [fst snd]; lia. }
  destruct PR as (PR & P2).
  assert (W : w = []).
  { destruct w; auto. exfalso. rewrite E, app_length in HL. destruct q; cbn [length] in *; [lia|].
    rewrite Nat.mul_succ_r in A. lia. }
  subst w. cbn [app] in E. rewrite blocks_nil, fl_nil. cbn [last].
  unfold SHA3_spec. cbv zeta. rewrite <- PR, E.
  rewrite (final_block_ok (fst (sha3_params t)) r) by (auto; apply skipn_repeat).
  rewrite (blocks_one _ (pad3 _ r)); auto; [lia|].
  unfold pad3. rewrite Nat.mod_small by auto. destruct (fst (sha3_params t) - length r)%nat as [|[|k]] eqn:Q; [lia| |].
  - rewrite app_length. cbn [length]. lia.
  - rewrite app_length. cbn [length]. rewrite app_length, repeat_length. cbn [length]. lia.
Qed.
Lemma sha3_zero_ok : forall t chunks whole rest q,
  let '(rate, d) := sha3_params t in
  concat chunks = whole ++ rest -> length whole = (rate * q)%nat -> (length rest < rate)%nat ->
  skipn (S (length rest)) (last (blocks rate whole) (repeat 0 rate)) = repeat 0 (rate - S (length rest)) ->
  sha3_chunks t chunks = SHA3_spec d (concat chunks).
Proof.
  intros t chunks whole rest q. destruct (sha3_digest_eq t chunks) as (w & r & q' & E & A & B & D).
  assert (PR : fst (sha3_params t) = (200 - 2 * snd (sha3_params t))%nat /\ (2 <= fst (sha3_params t))%nat).
  { unfold sha3_params. destruct (t =? 0), (t =? 2), (t =? 3); cbn [fst snd]; lia. }
  destruct PR as (PR & P2).
  destruct (sha3_params t) as [rate d]. cbn [fst snd] in *. intros EM LW LR HZ.
  destruct (split_unique rate w r whole rest q' q) as (-> & ->); auto; [congruence|].
  rewrite D. rewrite final_block_ok by auto. unfold SHA3_spec. cbv zeta. rewrite <- PR.
  assert (P : pad3 rate (concat chunks) = whole ++ pad3 rate rest).
  { unfold pad3. rewrite EM, app_length.
    replace ((length whole + length rest) mod rate)%nat with (length rest mod rate)%nat.
    2:{ rewrite LW, Nat.mul_comm, Nat.add_comm, Nat.mod_add by lia. reflexivity. }
    destruct (rate - length rest mod rate)%nat as [|[|k]]; rewrite <- app_assoc; reflexivity. }
  assert (LP : length (pad3 rate rest) = rate).
  { unfold pad3. rewrite Nat.mod_small by auto. destruct (rate - length rest)%nat as [|[|k]] eqn:Q; [lia| |].
    - rewrite app_length. cbn [length]. lia.
    - rewrite app_length. cbn [length]. rewrite app_length, repeat_length. cbn [length]. lia. }
  rewrite P, (blocks_app rate q) by (auto; lia). rewrite (blocks_one rate (pad3 rate rest)) by (auto; lia).
  rewrite fold_left_app, fl_cons, fl_nil. reflexivity.
Qed.
Lemma flat_map_len8 : forall (f : Z -> list Z) l, (forall x, length (f x) = 8%nat) -> length (flat_map f l) = (8 * length l)%nat.
Proof. intros f l Hf. induction l as [|x l IH]; cbn [flat_map length]; auto. rewrite app_length, Hf, IH. lia. Qed.
Local Transparent absorb.
Lemma absorb_len : forall st b, length (absorb st b) = 25%nat.
Proof. intros. unfold absorb. apply keccak_eq. rewrite map_length. reflexivity. Qed.
Local Opaque absorb.
Lemma SHA3_len : forall d msg, (d <= 64)%nat -> length (SHA3_spec d msg) = d.
Proof.
  intros d msg Hd. unfold SHA3_spec. cbv zeta. apply firstn_length_le. rewrite flat_map_len8 by reflexivity.
  assert (L : length (fold_left absorb (blocks (200 - 2 * d) (pad3 (200 - 2 * d) msg)) (repeat 0 25)) = 25%nat).
  { generalize (blocks (200 - 2 * d) (pad3 (200 - 2 * d) msg)). intros l.
    assert (G : forall l st, length st = 25%nat -> length (fold_left absorb l st) = 25%nat).
    { clear. induction l as [|b l IH]; intros st H; auto. rewrite fl_cons. apply IH. apply absorb_len. }
    apply G. apply repeat_length. }
  rewrite L. lia.
Qed.
Lemma sha3_types_ok : forall junk dig0 msg, length dig0 = 1024%nat -> (length msg < 72)%nat ->
  crypto_hash junk dig0 SHA3_256 msg = SHA3_spec 64 msg /\
  crypto_hash junk dig0 SHA3_384 msg = SHA3_spec 32 msg ++ firstn 32 (skipn 32 dig0) /\
  crypto_hash junk dig0 SHA3_512 msg = SHA3_spec 48 msg ++ firstn 16 (skipn 48 dig0) /\
  crypto_hash junk dig0 SHA3_224 msg = SHA3_spec 28 msg ++ firstn 36 (skipn 28 dig0).
Proof.
  intros junk dig0 msg HD HM. unfold crypto_hash, hash_num.
  assert (G : forall d n, (d <= 64)%nat -> n = (64 - d)%nat -> firstn 64 (copy_at 0 (SHA3_spec d msg) dig0) = SHA3_spec d msg ++ firstn n (skipn d dig0)).
  { intros d n Hd ->. assert (L := SHA3_len d msg Hd). rewrite copy_at_eq by lia. rewrite firstn_O, L. cbn [app Nat.add].
    rewrite firstn_app, L. rewrite (firstn_all2 (SHA3_spec d msg)) by lia. reflexivity. }
  change (6 - 3) with 3. change (4 - 3) with 1. change (5 - 3) with 2. change (3 - 3) with 0.
  rewrite !sha3_short_ok by (cbn [concat]; rewrite app_nil_r; unfold sha3_params; cbn [Z.eqb Pos.eqb fst]; lia).
  cbn [concat]. rewrite app_nil_r. unfold sha3_params. cbn [Z.eqb Pos.eqb snd].
  repeat split; [rewrite (G 64%nat 0%nat) by lia; rewrite firstn_O, app_nil_r; reflexivity|apply G; lia|apply G; lia|apply G; lia].
Qed.

(* -------------------------------------------------------- proof of work *)
Lemma smask_bits : forall n, (n <= 8)%nat -> forall x, byte x ->
  ((Z.land x (smask n) =? 0) = true <-> forall i, 0 <= i < Z.of_nat n -> Z.testbit x (7 - i) = false).
Proof.
  intros n Hn x Hx.
  assert (T : forall i, 0 <= i -> Z.testbit (smask n) i = ((8 - Z.of_nat n <=? i) && (i <? 8))).
  { assert (H : forallb (fun n => forallb (fun i => Bool.eqb (Z.testbit (smask n) i) ((8 - Z.of_nat n <=? i) && (i <? 8))) (map Z.of_nat (seq 0 8))) (seq 0 9) = true) by (vm_compute; reflexivity).
    intros i Hi. destruct (Z_lt_ge_dec i 8) as [L|L].
    - rewrite forallb_forall in H. specialize (H n ltac:(apply in_seq; lia)). rewrite forallb_forall in H.
      apply Bool.eqb_prop. apply H. apply in_map_iff. exists (Z.to_nat i). split; [lia|apply in_seq; lia].
    - replace (i <? 8) with false by (symmetry; apply Z.ltb_ge; lia). rewrite andb_false_r.
      assert (R : forallb (fun n => (0 <=? smask n) && (smask n <? 256)) (seq 0 9) = true) by (vm_compute; reflexivity).
      rewrite forallb_forall in R. specialize (R n ltac:(apply in_seq; lia)). apply andb_prop in R as (R1 & R2). b2p.
      rewrite <- (Z.mod_small (smask n) (2 ^ 8)) by lia. apply Z.mod_pow2_bits_high. lia. }
  split.
  - intros H i Hi. apply Z.eqb_eq in H.
    assert (B : Z.testbit (Z.land x (smask n)) (7 - i) = false) by (rewrite H; apply Z.bits_0).
    rewrite Z.land_spec, T in B by lia.
    replace (8 - Z.of_nat n <=? 7 - i) with true in B by (symmetry; apply Z.leb_le; lia).
    replace (7 - i <? 8) with true in B by (symmetry; apply Z.ltb_lt; lia). cbn [andb] in B. rewrite andb_true_r in B. exact B.
  - intros H. apply Z.eqb_eq. apply Z.bits_inj'. intros i Hi. rewrite Z.bits_0, Z.land_spec, T by lia.
    destruct (8 - Z.of_nat n <=? i) eqn:Q1; [|apply andb_false_r]. destruct (i <? 8) eqn:Q2; [|apply andb_false_r]. b2p.
    replace i with (7 - (7 - i)) by lia. rewrite H by lia. reflexivity.
Qed.
Lemma byte_zero_bits : forall x, byte x -> ((x =? 0) = true <-> forall i, 0 <= i < 8 -> Z.testbit x (7 - i) = false).
Proof.
  intros x Hx. split.
  - intros H i Hi. apply Z.eqb_eq in H. subst. apply Z.bits_0.
  - intros H. apply Z.eqb_eq. apply Z.bits_inj'. intros i Hi. rewrite Z.bits_0. destruct (Z_lt_ge_dec i 8) as [L|L].
    + replace i with (7 - (7 - i)) by lia. apply H. lia.
    + unfold byte in Hx. rewrite <- (Z.mod_small x (2 ^ 8)) by lia. apply Z.mod_pow2_bits_high. lia.
Qed.
Lemma pow_accept_ok : forall strength d, 0 < strength -> strength <= 8 * Z.of_nat (length d) -> bytes d ->
  (pow_accept strength d = true <-> leading_zero_bits strength d).
Proof.
  intros strength d H0 HL HB. unfold pow_accept. cbv zeta.
  set (sb := strength / 8). assert (D : strength = 8 * sb + strength mod 8) by (apply Z.div_mod; lia).
  assert (MB : 0 <= strength mod 8 < 8) by (apply Z.mod_pos_bound; lia).
  assert (SB : 0 <= sb) by lia.
  replace (strength - 8 * sb) with (strength mod 8) by lia. set (n := Z.to_nat (strength mod 8)).
  assert (NB : forall k, (k < length d)%nat -> byte (nth k d 0)).
  { intros k Hk. unfold bytes in HB. rewrite Forall_forall in HB. apply HB. apply nth_In. auto. }
  rewrite andb_true_iff, forallb_forall.
  assert (P1 : (forall x, In x (firstn (Z.to_nat sb) d) -> (x =? 0) = true) <->
     (forall i, 0 <= i < 8 * sb -> Z.testbit (nth (Z.to_nat (i / 8)) d 0) (7 - i mod 8) = false)).
  { split.
    - intros H i Hi. assert (Q : 0 <= i / 8 < sb) by (split; [apply Z.div_pos; lia|apply Z.div_lt_upper_bound; lia]).
      apply byte_zero_bits; [apply NB; lia| |apply Z.mod_pos_bound; lia].
      apply H. rewrite <- (firstn_skipn (Z.to_nat sb) d) at 1. rewrite app_nth1 by (rewrite firstn_length_le; lia). apply nth_In.
      rewrite firstn_length_le; lia.
    - intros H x Hx. apply (In_nth _ _ 0) in Hx as (k & Hk & <-). rewrite firstn_length_le in Hk by lia.
      assert (E : nth k (firstn (Z.to_nat sb) d) 0 = nth k d 0).
      { rewrite <- (firstn_skipn (Z.to_nat sb) d) at 2. rewrite app_nth1; auto. rewrite firstn_length_le; lia. }
      rewrite E. apply byte_zero_bits; [apply NB; lia|]. intros i Hi. specialize (H (8 * Z.of_nat k + i) ltac:(lia)).
      replace ((8 * Z.of_nat k + i) / 8) with (Z.of_nat k) in H by (Z.div_mod_to_equations; lia).
      replace ((8 * Z.of_nat k + i) mod 8) with i in H by (Z.div_mod_to_equations; lia).
      rewrite Nat2Z.id in H. auto. }
  assert (P2 : (smask n =? 0) || (Z.land (at_ d (Z.to_nat sb)) (smask n) =? 0) = true <->
     (forall i, 0 <= i < strength mod 8 -> Z.testbit (nth (Z.to_nat sb) d 0) (7 - i) = false)).
  { destruct (Z.eq_dec (strength mod 8) 0) as [E|E].
    - unfold n. rewrite E. cbn. split; auto. intros; lia.
    - assert (smask n =? 0 = false).
      { assert (R : forallb (fun n => negb (smask n =? 0)) (seq 1 8) = true) by (vm_compute; reflexivity).
        rewrite forallb_forall in R. specialize (R n ltac:(apply in_seq; unfold n; lia)). destruct (smask n =? 0); auto; discriminate. }
      rewrite H. cbn [orb]. unfold at_. rewrite smask_bits; [|unfold n; lia|apply NB; lia]. unfold n. rewrite Z2Nat.id by lia. reflexivity. }
  rewrite P1, P2. unfold leading_zero_bits. split.
  - intros (A & B) i Hi. destruct (Z_lt_ge_dec i (8 * sb)) as [L|L]; [apply A; lia|].
    specialize (B (i - 8 * sb) ltac:(lia)).
    replace (i / 8) with sb by (Z.div_mod_to_equations; lia). replace (i mod 8) with (i - 8 * sb) by (Z.div_mod_to_equations; lia). auto.
  - intros H. split.
    + intros i Hi. apply H. lia.
    + intros i Hi. specialize (H (8 * sb + i) ltac:(lia)).
      replace ((8 * sb + i) / 8) with sb in H by (Z.div_mod_to_equations; lia).
      replace ((8 * sb + i) mod 8) with i in H by (Z.div_mod_to_equations; lia). auto.
Qed.
Lemma pow_ok : forall dg msg strength fuel nonce d,
  (forall m, length (dg m) = 32%nat /\ bytes (dg m)) -> 0 < strength <= 256 ->
  pow_loop fuel dg msg strength 0 = Some (nonce, d) ->
  d = dg (msg ++ nonce_text nonce) /\ leading_zero_bits strength d /\
  (Z.of_nat fuel < 2 ^ 32 -> forall n, 0 <= n < nonce -> ~ leading_zero_bits strength (dg (msg ++ nonce_text n))).
Proof.
  intros dg msg strength fuel nonce d HD HS.
  assert (G : forall f n0, pow_loop f dg msg strength n0 = Some (nonce, d) ->
    d = dg (msg ++ nonce_text nonce) /\ leading_zero_bits strength d /\
    (0 <= n0 -> n0 + Z.of_nat f < 2 ^ 32 -> forall n, n0 <= n < nonce -> ~ leading_zero_bits strength (dg (msg ++ nonce_text n)))).
  { induction f as [|f IH]; intros n0 H; [discriminate|]. cbn [pow_loop] in H. cbv zeta in H.
    destruct (HD (msg ++ nonce_text n0)) as (L & B).
    pose proof (pow_accept_ok strength (dg (msg ++ nonce_text n0)) ltac:(lia) ltac:(lia) B) as P.
    destruct (pow_accept strength (dg (msg ++ nonce_text n0))) eqn:Q.
    - injection H as <- <-. split; auto. split; [apply P; auto|]. intros; lia.
    - destruct (IH _ H) as (A & B1 & C). split; auto. split; auto.
      intros Hn Hf n Hr. destruct (Z.eq_dec n n0) as [-> |NE].
      + intros X. apply P in X. discriminate.
      + apply C; unfold add32, W32; rewrite ?Z.mod_small by lia; lia. }
  intros H. destruct (G _ _ H) as (A & B & C). split; auto. split; auto. intros HF n Hn. apply C; lia.
Qed.
