(** Lemmas for the digests. *)
From Coq Require Import ZArith List Bool Lia.
Import ListNotations.
From Verif Require Import Bits UtfModel CodecSpec XxteaModel DigestModel DigestSpec.
Local Open Scope Z_scope.

(* ------------------------------------------------------------------ arrays *)
Lemma skipn_skipn' : forall (A : Type) x y (l : list A), skipn x (skipn y l) = skipn (x + y) l.
Proof.
  intros A x y. revert x. induction y as [|y IH]; intros x l.
  - rewrite Nat.add_0_r. reflexivity.
  - destruct l as [|a l]. { rewrite !skipn_nil. reflexivity. }
    replace (x + S y)%nat with (S (x + y)) by lia. cbn [skipn]. apply IH.
Qed.
Lemma set_nth_eq : forall i v d, (i < length d)%nat -> set_nth i v d = firstn i d ++ v :: skipn (S i) d.
Proof.
  induction i as [|i IH]; intros v [|x d] H; cbn [length] in H; try lia; cbn [set_nth firstn skipn app]; auto.
  f_equal. apply IH. lia.
Qed.
Lemma set_nth_len : forall i v d, length (set_nth i v d) = length d.
Proof. induction i as [|i IH]; intros v [|x d]; cbn; auto. Qed.
Lemma copy_at_len : forall src i d, length (copy_at i src d) = length d.
Proof. induction src as [|b r IH]; intros i d; cbn [copy_at]; auto. rewrite IH. apply set_nth_len. Qed.
Lemma copy_at_eq : forall src i d, (i + length src <= length d)%nat ->
  copy_at i src d = firstn i d ++ src ++ skipn (i + length src) d.
Proof.
  induction src as [|b r IH]; intros i d H; cbn [copy_at length app].
  - rewrite Nat.add_0_r, firstn_skipn. reflexivity.
  - cbn [length] in H. rewrite IH by (rewrite set_nth_len; lia).
    rewrite set_nth_eq by lia.
    assert (L : length (firstn i d) = i) by (apply firstn_length_le; lia).
    replace (firstn (S i) (firstn i d ++ b :: skipn (S i) d)) with (firstn i d ++ [b]).
    2:{ rewrite firstn_app, L, (firstn_all2 (n := S i)) by lia. replace (S i - i)%nat with 1%nat by lia. reflexivity. }
    replace (skipn (S i + length r) (firstn i d ++ b :: skipn (S i) d)) with (skipn (i + S (length r)) d).
    2:{ rewrite skipn_app, L. rewrite (skipn_all2 (firstn i d)) by lia. cbn [app].
        replace (S i + length r - i)%nat with (S (length r)) by lia. rewrite skipn_cons, skipn_skipn'. f_equal. lia. }
    rewrite <- app_assoc. reflexivity.
Qed.
Lemma fill_copy : forall n i v d, fill n i v d = copy_at i (repeat v n) d.
Proof. induction n as [|n IH]; intros; cbn; auto. Qed.
Lemma at_app1 : forall a b i, (i < length a)%nat -> at_ (a ++ b) i = at_ a i.
Proof. intros. unfold at_. apply app_nth1. auto. Qed.

(* ------------------------------------------------------------------ blocks *)
Lemma blocks_nil : forall n, blocks n [] = [].
Proof. intros [|n]; cbn [blocks length]; unfold blocks; [reflexivity|]. cbn [length]. rewrite Nat.div_0_l by lia. reflexivity. Qed.
Lemma blocks_cons : forall n b r, (0 < n)%nat -> length b = n -> blocks n (b ++ r) = b :: blocks n r.
Proof.
  intros n b r Hn HL. unfold blocks. rewrite app_length, HL.
  replace ((n + length r) / n)%nat with (S (length r / n)).
  2:{ replace (n + length r)%nat with (1 * n + length r)%nat by lia. rewrite Nat.div_add_l by lia. lia. }
  cbn [seq map]. f_equal.
  - rewrite Nat.mul_0_r. cbn [skipn]. rewrite firstn_app, HL, Nat.sub_diag, firstn_O, app_nil_r. apply firstn_all2. lia.
  - rewrite <- seq_shift, map_map. apply map_ext. intros i.
    replace (n * S i)%nat with (n + n * i)%nat by lia. rewrite skipn_app, HL.
    rewrite (skipn_all2 b) by lia. cbn [app]. do 2 f_equal. lia.
Qed.
Lemma blocks_app : forall n q w r, (0 < n)%nat -> length w = (n * q)%nat -> blocks n (w ++ r) = blocks n w ++ blocks n r.
Proof.
  intros n q. induction q as [|q IH]; intros w r Hn HL.
  - rewrite Nat.mul_0_r in HL. destruct w; [|discriminate]. rewrite blocks_nil. reflexivity.
  - rewrite <- (firstn_skipn n w). assert (L : length (firstn n w) = n) by (apply firstn_length_le; lia).
    rewrite <- app_assoc. rewrite (blocks_cons n (firstn n w) (skipn n w)), (blocks_cons n (firstn n w) (skipn n w ++ r)) by auto. cbn [app]. f_equal. apply IH; auto.
    rewrite skipn_length. lia.
Qed.
Lemma blocks_one : forall n b, (0 < n)%nat -> length b = n -> blocks n b = [b].
Proof. intros. rewrite <- (app_nil_r b) at 1. rewrite blocks_cons, blocks_nil; auto. Qed.
Lemma blocks_In : forall n q w b, (0 < n)%nat -> length w = (n * q)%nat -> In b (blocks n w) ->
  length b = n /\ forall x, In x b -> In x w.
Proof.
  intros n q. induction q as [|q IH]; intros w b Hn HL HI.
  - rewrite Nat.mul_0_r in HL. destruct w; [|discriminate]. rewrite blocks_nil in HI. destruct HI.
  - assert (L : length (firstn n w) = n) by (apply firstn_length_le; lia).
    rewrite <- (firstn_skipn n w) in HI. rewrite blocks_cons in HI by auto. destruct HI as [<-|HI].
    + split; auto. intros x Hx. rewrite <- (firstn_skipn n w). apply in_or_app; auto.
    + destruct (IH (skipn n w) b Hn) as (H1 & H2); [rewrite skipn_length; lia|auto|].
      split; auto. intros x Hx. rewrite <- (firstn_skipn n w). apply in_or_app; auto.
Qed.

(* ----------------------------------------------------------------- padding *)
Lemma zeros_spec : forall w r, (r < 64)%nat -> (w mod 64 = 0)%nat ->
  zeros_needed (w + r) = if (r <? 56)%nat then (55 - r)%nat else (119 - r)%nat.
Proof.
  intros w r Hr Hw. unfold zeros_needed.
  replace ((w + r) mod 64)%nat with r.
  2:{ rewrite Nat.add_mod by lia. rewrite Hw. cbn [Nat.add]. rewrite Nat.mod_mod by lia. symmetry. apply Nat.mod_small. auto. }
  destruct (r <? 56)%nat eqn:Q.
  - apply Nat.ltb_lt in Q. replace (119 - r)%nat with (55 - r + 1 * 64)%nat by lia. rewrite Nat.mod_add by lia. apply Nat.mod_small; lia.
  - apply Nat.ltb_ge in Q. apply Nat.mod_small; lia.
Qed.

(* -------------------------------------------------- the buffering of SHA-1/256 *)
Section Sha.
Variable tr : list Z -> list Z -> list Z.
Variable iv : list Z.

(** What a context holds after the bytes msg *)
Definition sha_inv (msg : list Z) (c : sha_ctx) : Prop :=
  exists whole rest q, msg = whole ++ rest /\ length whole = (64 * q)%nat /\ (length rest < 64)%nat /\
    length (s_data c) = 64%nat /\ firstn (length rest) (s_data c) = rest /\ s_datalen c = length rest /\
    s_state c = fold_left tr (blocks 64 whole) iv /\ s_bitlen c = 8 * Z.of_nat (length whole) mod W64.

Lemma sha_inv_init : forall junk, length junk = 64%nat -> sha_inv [] (sha_init iv junk).
Proof. intros junk HL. exists [], [], 0%nat. cbn. rewrite HL. repeat split; auto. lia. Qed.

Lemma sha_inv_byte : forall msg c b, sha_inv msg c -> sha_inv (msg ++ [b]) (sha_byte tr c b).
Proof.
  intros msg c b (whole & rest & q & EM & LW & LR & LD & FD & DL & ST & BL).
  assert (SN : set_nth (length rest) b (s_data c) = rest ++ b :: skipn (S (length rest)) (s_data c)).
  { rewrite set_nth_eq by lia. rewrite FD. reflexivity. }
  unfold sha_byte. rewrite DL. destruct (length rest + 1 =? 64)%nat eqn:Q.
  - apply Nat.eqb_eq in Q. 
    assert (SK : skipn (S (length rest)) (s_data c) = []) by (apply skipn_all2; lia).
    rewrite SK in SN.
    exists (whole ++ rest ++ [b]), [], (S q). cbn [s_data s_datalen s_state s_bitlen length firstn].
    rewrite EM, <- !app_assoc, app_nil_r, set_nth_len. repeat split; auto.
    + rewrite !app_length. cbn [length]. lia.
    + lia.
    + rewrite SN, ST. rewrite (blocks_app 64 q) by (auto; lia). rewrite (blocks_one 64 (rest ++ [b])) by (rewrite ?app_length; cbn [length]; lia).
      rewrite fold_left_app. reflexivity.
    + rewrite BL, !app_length. cbn [length]. rewrite Z.add_mod_idemp_l by (unfold W64; lia). f_equal. lia.
  - apply Nat.eqb_neq in Q.
    exists whole, (rest ++ [b]), q. cbn [s_data s_datalen s_state s_bitlen].
    rewrite EM, <- app_assoc, set_nth_len, app_length. cbn [length]. repeat split; auto; try lia.
    rewrite SN. replace (rest ++ b :: skipn (S (length rest)) (s_data c)) with ((rest ++ [b]) ++ skipn (S (length rest)) (s_data c)) by (rewrite <- app_assoc; reflexivity).
    rewrite firstn_app, app_length. cbn [length]. rewrite Nat.sub_diag, firstn_O, app_nil_r. apply firstn_all2. rewrite app_length. cbn [length]. lia.
Qed.
Lemma sha_inv_update : forall msg2 msg c, sha_inv msg c -> sha_inv (msg ++ msg2) (sha_update tr c msg2).
Proof.
  unfold sha_update. induction msg2 as [|b r IH]; intros msg c H; cbn [fold_left].
  - rewrite app_nil_r. auto.
  - replace (msg ++ b :: r) with ((msg ++ [b]) ++ r) by (rewrite <- app_assoc; reflexivity).
    apply IH. apply sha_inv_byte. auto.
Qed.
Lemma sha_inv_chunks : forall chunks msg c, sha_inv msg c -> sha_inv (msg ++ concat chunks) (fold_left (sha_update tr) chunks c).
Proof.
  induction chunks as [|x r IH]; intros msg c H; cbn [fold_left concat].
  - rewrite app_nil_r. auto.
  - rewrite app_assoc. apply IH. apply sha_inv_update. auto.
Qed.

Lemma put_len_eq : forall bl d, length d = 64%nat ->
  put_len bl d = firstn 56 d ++ big_endian 8 bl.
Proof.
  intros bl d HL.
  do 64 (destruct d as [|? d]; [discriminate|]). destruct d; [|discriminate].
  unfold put_len, big_endian, byte_of. cbn [seq fold_left map firstn app set_nth Nat.sub Z.of_nat].
  repeat apply f_equal2; try reflexivity.
  all: apply Z.shiftr_div_pow2; lia.
Qed.

Lemma sha_final_eq : forall msg c, sha_inv msg c ->
  sha_final_state tr c = fold_left tr (blocks 64 (padded (big_endian 8) msg)) iv.
Proof.
  intros msg c (whole & rest & q & EM & LW & LR & LD & FD & DL & ST & BL).
  assert (HB : (s_bitlen c + Z.of_nat (s_datalen c) * 8) mod W64 = bit_length msg).
  { unfold bit_length. rewrite BL, DL, EM, app_length. change (2 ^ 64) with W64.
    rewrite Z.add_mod_idemp_l by (unfold W64; lia). f_equal. lia. }
  assert (L8 : length (big_endian 8 (bit_length msg)) = 8%nat) by reflexivity.
  unfold sha_final_state. rewrite HB, DL.
  assert (SN : set_nth (length rest) 128 (s_data c) = (rest ++ [128]) ++ skipn (S (length rest)) (s_data c)).
  { rewrite set_nth_eq by lia. rewrite FD, <- app_assoc. reflexivity. }
  assert (FI : forall n, (S (length rest) + n <= 64)%nat ->
     fill n (length rest + 1) 0 (set_nth (length rest) 128 (s_data c)) =
     rest ++ [128] ++ repeat 0 n ++ skipn (S (length rest) + n) (s_data c)).
  { intros n Hn. rewrite fill_copy, copy_at_eq by (rewrite set_nth_len, repeat_length; lia).
    rewrite repeat_length, SN.
    replace (length rest + 1)%nat with (length (rest ++ [128])) by (rewrite app_length; reflexivity).
    rewrite firstn_app, Nat.sub_diag, firstn_O, app_nil_r, firstn_all.
    rewrite skipn_app. rewrite (skipn_all2 (rest ++ [128])) by lia. cbn [app].
    rewrite skipn_skipn'. rewrite <- app_assoc. rewrite app_length. cbn [length app].
    replace (length rest + 1 + n - (length rest + 1) + S (length rest))%nat with (S (length rest) + n)%nat by lia. reflexivity. }
  assert (W0 : (length whole mod 64 = 0)%nat) by (rewrite LW, Nat.mul_comm; apply Nat.mod_mul; lia).
  unfold padded. generalize dependent (bit_length msg). intros bl HB L8. rewrite EM, app_length, zeros_spec by auto.
  rewrite <- app_assoc.
  destruct (length rest <? 56)%nat eqn:Q.
  - apply Nat.ltb_lt in Q. cbv zeta. rewrite FI by lia.
    rewrite put_len_eq.
    2:{ rewrite !app_length, repeat_length, skipn_length, LD. cbn [length]. lia. }
    rewrite (blocks_app 64 q) by (auto; lia).
    rewrite (blocks_one 64 (rest ++ _)); [|lia|rewrite app_length; cbn [length]; rewrite app_length, repeat_length, L8; lia].
    rewrite fold_left_app. cbn [fold_left]. rewrite <- ST. f_equal.
    replace (56 - (length rest + 1))%nat with (55 - length rest)%nat by lia.
    cbn [app].
    rewrite firstn_app.
    rewrite (firstn_all2 (n := 56) rest) by lia.
    replace (56 - length rest)%nat with (S (55 - length rest)) by lia. cbn [firstn].
    rewrite firstn_app, repeat_length, Nat.sub_diag, firstn_O, app_nil_r.
    rewrite (firstn_all2 (repeat 0 (55 - length rest))) by (rewrite repeat_length; lia).
    rewrite <- app_assoc. reflexivity.
  - apply Nat.ltb_ge in Q. cbv zeta. rewrite FI by lia.
    replace (S (length rest) + (64 - (length rest + 1)))%nat with 64%nat by lia.
    rewrite (skipn_all2 (n := 64) (s_data c)) by lia. rewrite app_nil_r.
    set (b1 := rest ++ [128] ++ repeat 0 (64 - (length rest + 1))).
    assert (L1 : length b1 = 64%nat) by (unfold b1; rewrite !app_length, repeat_length; cbn [length]; lia).
    rewrite fill_copy, copy_at_eq by (rewrite repeat_length; lia).
    rewrite put_len_eq by (rewrite !app_length, firstn_length, skipn_length, repeat_length; lia).
    rewrite firstn_O. cbn [app]. rewrite firstn_app, repeat_length, Nat.sub_diag, firstn_O, app_nil_r.
    rewrite (firstn_all2 (repeat 0 56)) by (rewrite repeat_length; lia).
    replace (whole ++ rest ++ 128 :: repeat 0 (119 - length rest) ++ big_endian 8 bl)
      with (whole ++ b1 ++ (repeat 0 56 ++ big_endian 8 bl)).
    2:{ f_equal. unfold b1. rewrite <- !app_assoc. f_equal. change ([128] ++ ?x) with (128 :: x). apply f_equal2; [reflexivity|]. rewrite app_assoc, <- repeat_app.
        replace (64 - (length rest + 1) + 56)%nat with (119 - length rest)%nat by lia.
 reflexivity. }
    rewrite (blocks_app 64 q) by (auto; lia). rewrite blocks_cons by (auto; lia).
    rewrite (blocks_one 64 (repeat 0 56 ++ _)); [|lia|rewrite app_length, repeat_length, L8; lia].
    rewrite fold_left_app. cbn [fold_left]. rewrite <- ST. reflexivity.
Qed.

Lemma sha_digest_eq : forall junk chunks, length junk = 64%nat ->
  sha_digest tr iv junk chunks =
  flat_map be_bytes (fold_left tr (blocks 64 (padded (big_endian 8) (concat chunks))) iv).
Proof.
  intros junk chunks HJ. unfold sha_digest. rewrite (sha_final_eq (concat chunks)); auto.
  change (concat chunks) with ([] ++ concat chunks). apply sha_inv_chunks. apply sha_inv_init. auto.
Qed.
End Sha.

(* ----------------------------------------------------- big-endian words *)
Lemma plus_add32 : plus = add32.
Proof. reflexivity. Qed.
Lemma sum_cons : forall a l, sum (a :: l) = fold_left plus l (a mod 2 ^ 32).
Proof. intros. unfold sum. cbn [fold_left]. unfold plus at 2. reflexivity. Qed.
Lemma plus_mod_l : forall a b, plus (a mod 2 ^ 32) b = plus a b.
Proof. intros. unfold plus. apply Z.add_mod_idemp_l. lia. Qed.
Lemma plus_assoc : forall a b c, plus (plus a b) c = plus a (plus b c).
Proof. intros. unfold plus. rewrite Z.add_mod_idemp_l, Z.add_mod_idemp_r by lia. f_equal. lia. Qed.
Lemma plus_comm : forall a b, plus a b = plus b a.
Proof. intros. unfold plus. f_equal. lia. Qed.
Lemma sum2 : forall a b l, sum (a :: b :: l) = fold_left plus l (plus a b).
Proof. intros. rewrite sum_cons. cbn [fold_left]. rewrite plus_mod_l. reflexivity. Qed.

Lemma be_word_eq : forall a b c d, byte a -> byte b -> byte c -> byte d ->
  Z.lor (Z.lor (Z.lor (shl32 a 24) (Z.shiftl b 16)) (Z.shiftl c 8)) d = from_be [a; b; c; d].
Proof.
  unfold byte. intros a b c d Ha Hb Hc Hd. unfold shl32, from_be. cbn [fold_left].
  rewrite !Z.shiftl_mul_pow2 by lia. rewrite Z.mod_small by (unfold W32; lia).
  rewrite (lor_add a 24 (b * 2 ^ 16)) by lia.
  replace (a * 2 ^ 24 + b * 2 ^ 16) with ((a * 256 + b) * 2 ^ 16) by lia.
  rewrite (lor_add _ 16 (c * 2 ^ 8)) by lia.
  replace ((a * 256 + b) * 2 ^ 16 + c * 2 ^ 8) with ((a * 65536 + b * 256 + c) * 2 ^ 8) by lia.
  rewrite (lor_add _ 8 d) by lia. lia.
Qed.
Lemma be_words_eq : forall q d, length d = (4 * q)%nat -> bytes d -> be_words d = map from_be (blocks 4 d).
Proof.
  induction q as [|q IH]; intros d HL HB.
  - destruct d; [|discriminate]. reflexivity.
  - do 4 (destruct d as [|? d]; [cbn in HL; lia|]). cbn [length] in HL.
    unfold bytes in HB. repeat match goal with H : Forall _ (_ :: _) |- _ => inversion H; clear H; subst end.
    change (z :: z0 :: z1 :: z2 :: d) with ([z; z0; z1; z2] ++ d). rewrite blocks_cons by (cbn; lia).
    cbn [be_words app map]. rewrite be_word_eq by auto. f_equal. apply IH; [lia|auto].
Qed.
Lemma le_word_eq : forall a b c d, byte a -> byte b -> byte c -> byte d ->
  Z.lor (shl32 (Z.lor (Z.shiftl d 8) c) 16) (Z.lor (Z.shiftl b 8) a) = from_le [a; b; c; d].
Proof.
  unfold byte. intros a b c d Ha Hb Hc Hd. unfold shl32, from_le. cbn [fold_right].
  rewrite !Z.shiftl_mul_pow2 by lia. rewrite !(lor_add _ 8) by lia.
  rewrite Z.mod_small by (unfold W32; lia). rewrite (lor_add _ 16) by lia. lia.
Qed.
Lemma le_words_eq : forall q d, length d = (4 * q)%nat -> bytes d -> le_words d = map from_le (blocks 4 d).
Proof.
  induction q as [|q IH]; intros d HL HB.
  - destruct d; [|discriminate]. reflexivity.
  - do 4 (destruct d as [|? d]; [cbn in HL; lia|]). cbn [length] in HL.
    unfold bytes in HB. repeat match goal with H : Forall _ (_ :: _) |- _ => inversion H; clear H; subst end.
    change (z :: z0 :: z1 :: z2 :: d) with ([z; z0; z1; z2] ++ d). rewrite blocks_cons by (cbn; lia).
    cbn [le_words app map]. rewrite le_word_eq by auto. f_equal. apply IH; [lia|auto].
Qed.
Lemma be_bytes_eq : forall w, be_bytes w = big_endian 4 w.
Proof.
  intros w. unfold be_bytes, big_endian, byte_of. cbn [seq map Nat.sub].
  repeat apply f_equal2; try reflexivity.
  all: rewrite (land_pow2 _ 8) by lia; rewrite Z.shiftr_div_pow2 by lia; reflexivity.
Qed.
Lemma le_bytes_eq : forall w, le_bytes w = little_endian 4 w.
Proof.
  intros w. unfold le_bytes, little_endian, byte_of. cbn [seq map].
  repeat apply f_equal2; try reflexivity.
  change (2 ^ (8 * Z.of_nat 0)) with 1. rewrite Z.div_1_r. reflexivity.
Qed.

(* ------------------------------------------------------------- SHA-1 transform *)
Lemma nth_rev' : forall (l : list Z) k, (k < length l)%nat -> nth k (rev l) 0 = nth (length l - S k) l 0.
Proof. intros. apply rev_nth. auto. Qed.
Lemma schedule1_len : forall n m, length (schedule1 n m) = (length m + n)%nat.
Proof. induction n as [|n IH]; intros; cbn [schedule1 length]; [rewrite rev_length; lia|]. cbv zeta. cbn [length]. rewrite IH. lia. Qed.
Lemma sha1_sched_eq : forall n k m, length m = 16%nat ->
  sha1_sched n (16 + k) (rev (schedule1 k m)) = rev (schedule1 (n + k) m).
Proof.
  induction n as [|n IH]; intros k m HL; [reflexivity|].
  cbn [sha1_sched]. replace (S n + k)%nat with (n + S k)%nat by lia. rewrite <- IH by auto.
  replace (S (16 + k)) with (16 + S k)%nat by lia. f_equal.
  cbn [schedule1]. cbn [rev]. f_equal. f_equal. unfold at_.
  rewrite !nth_rev' by (rewrite schedule1_len; lia). rewrite schedule1_len, HL.
  replace (16 + k - S (16 + k - 3))%nat with 2%nat by lia.
  replace (16 + k - S (16 + k - 8))%nat with 7%nat by lia.
  replace (16 + k - S (16 + k - 14))%nat with 13%nat by lia.
  replace (16 + k - S (16 + k - 16))%nat with 15%nat by lia.
  reflexivity.
Qed.
Definition l5 (r : regs5) : list Z := let '(a, b, c, d, e) := r in [a; b; c; d; e].
Lemma sha1_round_eq : forall W r t, (t < 80)%nat -> l5 (sha1_round W r t) = step1 W (l5 r) t.
Proof.
  intros W [[[[a b] c] d] e] t Ht. unfold sha1_round, l5, step1.
  assert (D : forall q, (20 * q <= t < 20 * q + 20)%nat -> (t / 20 = q)%nat).
  { intros q Hq. symmetry. apply (Nat.div_unique t 20 q (t - 20 * q)); lia. }
  repeat apply f_equal2; try reflexivity.
  rewrite sum2. cbn [fold_left]. unfold f1, K1.
  destruct (t <? 20)%nat eqn:Q1; [apply Nat.ltb_lt in Q1; rewrite (D 0%nat) by lia; reflexivity|apply Nat.ltb_ge in Q1].
  destruct (t <? 40)%nat eqn:Q2; [apply Nat.ltb_lt in Q2; rewrite (D 1%nat) by lia; reflexivity|apply Nat.ltb_ge in Q2].
  destruct (t <? 60)%nat eqn:Q3; [apply Nat.ltb_lt in Q3; rewrite (D 2%nat) by lia; reflexivity|apply Nat.ltb_ge in Q3].
  rewrite (D 3%nat) by lia. reflexivity.
Qed.
Lemma fold_sim : forall (A B : Type) (f : A -> nat -> A) (g : B -> nat -> B) (p : A -> B) l,
  (forall a i, In i l -> p (f a i) = g (p a) i) -> forall a, p (fold_left f l a) = fold_left g l (p a).
Proof.
  intros A B f g p l. induction l as [|i l IH]; intros H a; cbn [fold_left]; auto.
  rewrite IH by (intros; apply H; right; auto). rewrite H by (left; auto). reflexivity.
Qed.
Lemma blocks_len : forall n q w, (0 < n)%nat -> length w = (n * q)%nat -> length (blocks n w) = q.
Proof. intros n q w Hn HL. unfold blocks. rewrite map_length, seq_length, HL, Nat.mul_comm. apply Nat.div_mul. lia. Qed.
Lemma sha1_transform_eq : forall st d, length st = 5%nat -> length d = 64%nat -> bytes d ->
  sha1_transform st d = compress1 st d.
Proof.
  intros st d HS HL HB. unfold sha1_transform, compress1. rewrite (be_words_eq 16) by auto.
  set (m := map from_be (blocks 4 d)).
  assert (LM : length m = 16%nat) by (unfold m; rewrite map_length; apply blocks_len; auto; lia).
  assert (E0 : sha1_sched 64 16 m = rev (schedule1 64 m)).
  { rewrite <- (rev_involutive m) at 1. exact (sha1_sched_eq 64 0 m LM). }
  rewrite E0. set (W := rev (schedule1 64 m)). clearbody W. clear E0.
  do 5 (destruct st as [|? st]; [discriminate|]). destruct st; [|discriminate]. unfold at_. cbn [nth].
  assert (E : l5 (fold_left (sha1_round W) (seq 0 80) (z, z0, z1, z2, z3)) = fold_left (step1 W) (seq 0 80) [z; z0; z1; z2; z3]).
  { apply (fold_sim _ _ _ _ l5). intros a i Hi. apply in_seq in Hi. apply sha1_round_eq. lia. }
  destruct (fold_left (sha1_round W) (seq 0 80) (z, z0, z1, z2, z3)) as [[[[a b] c] dd] e].
  rewrite <- E. reflexivity.
Qed.
(* ----------------------------------------------------------- SHA-256 transform *)
Lemma schedule256_len : forall n m, length (schedule256 n m) = (length m + n)%nat.
Proof. induction n as [|n IH]; intros; cbn [schedule256 length]; [rewrite rev_length; lia|]. cbv zeta. cbn [length]. rewrite IH. lia. Qed.
Lemma sha256_sched_eq : forall n k m, length m = 16%nat ->
  sha256_sched n (16 + k) (rev (schedule256 k m)) = rev (schedule256 (n + k) m).
Proof.
  induction n as [|n IH]; intros k m HL; [reflexivity|].
  cbn [sha256_sched]. replace (S n + k)%nat with (n + S k)%nat by lia. rewrite <- IH by auto.
  replace (S (16 + k)) with (16 + S k)%nat by lia. f_equal.
  cbn [schedule256]. cbn [rev]. f_equal. f_equal. unfold at_.
  rewrite !nth_rev' by (rewrite schedule256_len; lia). rewrite schedule256_len, HL.
  replace (16 + k - S (16 + k - 2))%nat with 1%nat by lia.
  replace (16 + k - S (16 + k - 7))%nat with 6%nat by lia.
  replace (16 + k - S (16 + k - 15))%nat with 14%nat by lia.
  replace (16 + k - S (16 + k - 16))%nat with 15%nat by lia.
  rewrite sum2. reflexivity.
Qed.
Definition l8 (r : regs8) : list Z := let '(a, b, c, d, e, f, g, h) := r in [a; b; c; d; e; f; g; h].
Lemma K256_eq : forall t, (t < 64)%nat -> K256 t = at_ sha256_k t.
Proof.
  assert (H : forallb (fun t => K256 t =? at_ sha256_k t) (seq 0 64) = true) by (vm_compute; reflexivity).
  intros t Ht. rewrite forallb_forall in H. apply Z.eqb_eq. apply H. apply in_seq. lia.
Qed.
Lemma iv256_eq : iv256 = sha256_iv.
Proof. vm_compute. reflexivity. Qed.
Lemma sha256_round_eq : forall W r t, (t < 64)%nat -> l8 (sha256_round W r t) = step256 W (l8 r) t.
Proof.
  intros W [[[[[[[a b] c] d] e] f] g] h] t Ht. unfold sha256_round, l8, step256.
  rewrite sum2. cbn [fold_left]. rewrite K256_eq by auto. reflexivity.
Qed.
Lemma sha256_transform_eq : forall st d, length st = 8%nat -> length d = 64%nat -> bytes d ->
  sha256_transform st d = compress256 st d.
Proof.
  intros st d HS HL HB. unfold sha256_transform, compress256. rewrite (be_words_eq 16) by auto.
  set (m := map from_be (blocks 4 d)).
  assert (LM : length m = 16%nat) by (unfold m; rewrite map_length; apply blocks_len; auto; lia).
  assert (E0 : sha256_sched 48 16 m = rev (schedule256 48 m)).
  { rewrite <- (rev_involutive m) at 1. exact (sha256_sched_eq 48 0 m LM). }
  rewrite E0. set (W := rev (schedule256 48 m)). clearbody W. clear E0.
  do 8 (destruct st as [|? st]; [discriminate|]). destruct st; [|discriminate]. unfold at_. cbn [nth].
  assert (E : l8 (fold_left (sha256_round W) (seq 0 64) (z, z0, z1, z2, z3, z4, z5, z6)) = fold_left (step256 W) (seq 0 64) [z; z0; z1; z2; z3; z4; z5; z6]).
  { apply (fold_sim _ _ _ _ l8). intros a i Hi. apply in_seq in Hi. apply sha256_round_eq. lia. }
  destruct (fold_left (sha256_round W) (seq 0 64) _) as [[[[[[[a b] c] dd] e] f] g] h].
  rewrite <- E. reflexivity.
Qed.
(* ------------------------------------------------------------- the whole digest *)
Lemma compress1_len : forall h b, length h = 5%nat -> length (compress1 h b) = 5%nat.
Proof.
  intros h b H. unfold compress1. rewrite map_length, combine_length.
  set (W := rev _). clearbody W.
  assert (E : forall l h, length h = 5%nat -> length (fold_left (step1 W) l h) = 5%nat).
  { induction l as [|i l IH]; intros h' H'; cbn [fold_left]; auto. apply IH.
    do 5 (destruct h' as [|? h']; [discriminate|]). destruct h'; [|discriminate]. reflexivity. }
  rewrite E; lia.
Qed.
Lemma compress256_len : forall h b, length h = 8%nat -> length (compress256 h b) = 8%nat.
Proof.
  intros h b H. unfold compress256. rewrite map_length, combine_length.
  set (W := rev _). clearbody W.
  assert (E : forall l h, length h = 8%nat -> length (fold_left (step256 W) l h) = 8%nat).
  { induction l as [|i l IH]; intros h' H'; cbn [fold_left]; auto. apply IH.
    do 8 (destruct h' as [|? h']; [discriminate|]). destruct h'; [|discriminate]. reflexivity. }
  rewrite E; lia.
Qed.
Lemma fold_tr : forall n (tr cp : list Z -> list Z -> list Z),
  (forall st d, length st = n -> length d = 64%nat -> bytes d -> tr st d = cp st d) ->
  (forall st d, length st = n -> length (cp st d) = n) ->
  forall bl st, length st = n -> Forall (fun b => length b = 64%nat /\ bytes b) bl -> fold_left tr bl st = fold_left cp bl st.
Proof.
  intros n tr cp H1 H2. induction bl as [|b bl IH]; intros st HS HF; auto. inversion HF as [|? ? (A & B) C]; subst.
  cbn [fold_left]. rewrite H1 by auto. apply IH; auto.
Qed.
Lemma byte_of_byte : forall i x, byte (byte_of i x).
Proof. intros. unfold byte, byte_of. apply Z.mod_pos_bound. lia. Qed.
Lemma padded_len : forall enc msg, (forall x, length (enc x) = 8%nat) -> exists q, length (padded enc msg) = (64 * q)%nat.
Proof.
  intros enc msg He. unfold padded. rewrite app_length. cbn [length]. rewrite app_length, repeat_length, He.
  set (w := (64 * (length msg / 64))%nat). set (r := (length msg mod 64)%nat).
  assert (E : length msg = (w + r)%nat) by (apply Nat.div_mod; lia).
  assert (R : (r < 64)%nat) by (apply Nat.mod_upper_bound; lia).
  rewrite E, zeros_spec; auto.
  - destruct (r <? 56)%nat eqn:Q; [apply Nat.ltb_lt in Q; exists (S (length msg / 64))|apply Nat.ltb_ge in Q; exists (S (S (length msg / 64)))]; unfold w; lia.
  - unfold w. rewrite Nat.mul_comm. apply Nat.mod_mul. lia.
Qed.
Lemma padded_blocks : forall enc msg, (forall x, length (enc x) = 8%nat) -> (forall x, bytes (enc x)) -> bytes msg ->
  Forall (fun b => length b = 64%nat /\ bytes b) (blocks 64 (padded enc msg)).
Proof.
  intros enc msg H1 H2 HB. destruct (padded_len enc msg H1) as (q & HQ).
  apply Forall_forall. intros b Hb. destruct (blocks_In 64 q _ b ltac:(lia) HQ Hb) as (L & I). split; auto.
  apply Forall_forall. intros x Hx. specialize (I x Hx). unfold padded in I.
  apply in_app_or in I as [I|[I|I]].
  - unfold bytes in HB. rewrite Forall_forall in HB. auto.
  - subst x. unfold byte; lia.
  - apply in_app_or in I as [I|I]; [apply repeat_spec in I; subst x; unfold byte; lia|].
    specialize (H2 (bit_length msg)). unfold bytes in H2. rewrite Forall_forall in H2. auto.
Qed.
Lemma big_endian_bytes : forall n x, bytes (big_endian n x).
Proof. intros. apply Forall_forall. intros y Hy. apply in_map_iff in Hy as (i & <- & _). apply byte_of_byte. Qed.
Lemma little_endian_bytes : forall n x, bytes (little_endian n x).
Proof. intros. apply Forall_forall. intros y Hy. apply in_map_iff in Hy as (i & <- & _). apply byte_of_byte. Qed.
Lemma flat_map_ext' : forall (f g : Z -> list Z) l, (forall x, f x = g x) -> flat_map f l = flat_map g l.
Proof. intros f g l H. induction l as [|a l IH]; cbn [flat_map]; auto. rewrite H, IH. reflexivity. Qed.
Lemma sha1_digest_ok : forall junk chunks, length junk = 64%nat -> bytes (concat chunks) ->
  sha1_digest junk chunks = SHA1_spec (concat chunks).
Proof.
  intros junk chunks HJ HB. unfold sha1_digest. rewrite sha_digest_eq by auto. unfold SHA1_spec.
  rewrite (flat_map_ext' be_bytes (big_endian 4)) by apply be_bytes_eq. f_equal.
  apply (fold_tr 5); [apply sha1_transform_eq|intros; apply compress1_len; auto|reflexivity|].
  apply padded_blocks; auto. intros. apply big_endian_bytes.
Qed.
Lemma sha256_digest_ok : forall junk chunks, length junk = 64%nat -> bytes (concat chunks) ->
  sha256_digest junk chunks = SHA256_spec (concat chunks).
Proof.
  intros junk chunks HJ HB. unfold sha256_digest. rewrite sha_digest_eq by auto. unfold SHA256_spec. rewrite iv256_eq.
  rewrite (flat_map_ext' be_bytes (big_endian 4)) by apply be_bytes_eq. f_equal.
  apply (fold_tr 8); [apply sha256_transform_eq|intros; apply compress256_len; auto|reflexivity|].
  apply padded_blocks; auto. intros. apply big_endian_bytes.
Qed.
