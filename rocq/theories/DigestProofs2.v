(** Lemmas for MD5 and SHA-3. *)
From Coq Require Import ZArith List Bool Lia.
Import ListNotations.
From Verif Require Import Bits UtfModel CodecSpec XxteaModel DigestModel DigestSpec DigestProofs.
Local Open Scope Z_scope.

(* --------------------------------------------------------------------- MD5 *)
Lemma md5_f1 : forall x y z, Z.lxor z (Z.land x (Z.lxor y z)) = Z.lor (Z.land x y) (Z.ldiff z x).
Proof.
  intros. apply Z.bits_inj'. intros i Hi.
  rewrite Z.lxor_spec, Z.land_spec, Z.lxor_spec, Z.lor_spec, Z.land_spec, Z.ldiff_spec.
  destruct (Z.testbit x i), (Z.testbit y i), (Z.testbit z i); reflexivity.
Qed.
Definition fn_of (t : nat) : md5_fn := match (t / 16)%nat with 0%nat => F1 | 1%nat => F2 | 2%nat => F3 | _ => F4 end.
Lemma md5_f_eq : forall t x y z, md5_f (fn_of t) x y z = f5 t x y z.
Proof.
  intros t x y z. unfold fn_of, f5. destruct (t / 16)%nat as [|[|[|n]]]; cbn [md5_f]; try reflexivity.
  - apply md5_f1.
  - rewrite md5_f1. rewrite (Z.land_comm z x). reflexivity.
Qed.
Definition regs_of (t : nat) : md5_reg * md5_reg * md5_reg * md5_reg :=
  match (t mod 4)%nat with 0%nat => (Ra, Rb, Rc, Rd) | 1%nat => (Rd, Ra, Rb, Rc) | 2%nat => (Rc, Rd, Ra, Rb) | _ => (Rb, Rc, Rd, Ra) end.
Definition op_of (t : nat) : md5_op := (fn_of t, regs_of t, k5 t, nth t T5 0, r5 t).
Lemma md5_steps_eq : md5_steps = map op_of (seq 0 64).
Proof. vm_compute. reflexivity. Qed.
(** The registers in the order the standard names them after t steps *)
Definition view (t : nat) (r : regs4) : list Z :=
  let '(a, b, c, d) := r in
  match (t mod 4)%nat with 0%nat => [a; b; c; d] | 1%nat => [d; a; b; c] | 2%nat => [c; d; a; b] | _ => [b; c; d; a] end.
Lemma md5_word_eq : forall a f i k x s,
  add32 (Z.lor (shl32 (add32 a (add32 f (add32 i k))) s) (Z.shiftr (add32 a (add32 f (add32 i k))) (32 - s))) x =
  plus x (rotl s (sum [a; f; i; k])).
Proof.
  intros. rewrite sum2. cbn [fold_left]. rewrite !plus_assoc. rewrite <- !plus_add32. rewrite (plus_comm (Z.lor _ _) x). reflexivity.
Qed.
Lemma md5_step_eq : forall X r t, view (S t) (md5_step X r (op_of t)) = step5 X (view t r) t.
Proof.
  intros X [[[a b] c] d] t. unfold op_of, md5_step.
  assert (M : (S t mod 4 = (t mod 4 + 1) mod 4)%nat) by (rewrite Nat.add_mod_idemp_l by lia; f_equal; lia).
  assert (B : (t mod 4 < 4)%nat) by (apply Nat.mod_upper_bound; lia).
  unfold view, regs_of. rewrite M.
  destruct (t mod 4)%nat as [|[|[|[|n]]]]; [| | | |lia];
  cbn [Nat.add Nat.modulo Nat.divmod Nat.sub fst snd md5_get md5_put step5]; rewrite md5_f_eq, md5_word_eq; reflexivity.
Qed.
Lemma md5_fold_eq : forall X n t r, view (t + n) (fold_left (md5_step X) (map op_of (seq t n)) r) = fold_left (step5 X) (seq t n) (view t r).
Proof.
  induction n as [|n IH]; intros t r; cbn [seq map fold_left].
  - rewrite Nat.add_0_r. reflexivity.
  - replace (t + S n)%nat with (S t + n)%nat by lia. rewrite IH, md5_step_eq. reflexivity.
Qed.
Lemma md5_transform_eq : forall st d, length st = 4%nat -> length d = 64%nat -> bytes d ->
  md5_transform st d = compress5 st d.
Proof.
  intros st d HS HL HB. unfold md5_transform, md5_transform_w, compress5. rewrite (le_words_eq 16) by auto.
  do 4 (destruct st as [|? st]; [discriminate|]). destruct st; [|discriminate]. unfold at_. cbn [nth].
  set (X := map from_le (blocks 4 d)).
  assert (E := md5_fold_eq X 64 0 (z, z0, z1, z2)). rewrite <- md5_steps_eq in E.
  change (view 0 (z, z0, z1, z2)) with [z; z0; z1; z2] in E. rewrite <- E.
  destruct (fold_left (md5_step X) md5_steps (z, z0, z1, z2)) as [[[a b] c] dd]. reflexivity.
Qed.
Lemma compress5_len : forall h b, length h = 4%nat -> length (compress5 h b) = 4%nat.
Proof.
  intros h b H. unfold compress5. rewrite map_length, combine_length.
  set (W := map from_le _). clearbody W.
  assert (E : forall l h, length h = 4%nat -> length (fold_left (step5 W) l h) = 4%nat).
  { induction l as [|i l IH]; intros h' H'; cbn [fold_left]; auto. apply IH.
    do 4 (destruct h' as [|? h']; [discriminate|]). destruct h'; [|discriminate]. reflexivity. }
  rewrite E; lia.
Qed.

Lemma fl_cons : forall (A B : Type) (f : A -> B -> A) x l a, fold_left f (x :: l) a = fold_left f l (f a x).
Proof. reflexivity. Qed.
Lemma fl_nil : forall (A B : Type) (f : A -> B -> A) a, fold_left f [] a = a.
Proof. reflexivity. Qed.
Local Opaque md5_transform.
Lemma md5_blocks_eq : forall fuel buf inb msg, length inb = 64%nat -> (length msg <= fuel)%nat ->
  exists whole rest q inb', md5_blocks fuel buf inb msg = (fold_left md5_transform (blocks 64 whole) buf, inb') /\
    msg = whole ++ rest /\ length whole = (64 * q)%nat /\ (length rest < 64)%nat /\
    length inb' = 64%nat /\ firstn (length rest) inb' = rest.
Proof.
  induction fuel as [|f IH]; intros buf inb msg HL HF.
  - destruct msg; [|cbn in HF; lia]. exists [], [], 0%nat, inb. rewrite blocks_nil, fl_nil. repeat split; auto; cbn; lia.
  - cbn [md5_blocks]. destruct (64 <=? length msg)%nat eqn:Q.
    + apply Nat.leb_le in Q. assert (L : length (firstn 64 msg) = 64%nat) by (apply firstn_length_le; lia).
      assert (C : copy_at 0 (firstn 64 msg) inb = firstn 64 msg).
      { rewrite copy_at_eq by lia. rewrite firstn_O, L. rewrite (skipn_all2 inb) by lia. rewrite app_nil_r. reflexivity. }
      rewrite C.
      destruct (IH (md5_transform buf (firstn 64 msg)) (firstn 64 msg) (skipn 64 msg) L) as (w & r & q & i & E & M & LW & LR & LI & FI).
      { rewrite skipn_length. lia. }
      exists (firstn 64 msg ++ w), r, (S q), i. repeat split; auto.
      * rewrite E, blocks_cons by (auto; lia). rewrite fl_cons. reflexivity.
      * rewrite <- app_assoc, <- M. symmetry. apply firstn_skipn.
      * rewrite app_length. lia.
    + apply Nat.leb_gt in Q. exists [], msg, 0%nat, (copy_at 0 msg inb). rewrite blocks_nil, fl_nil.
      repeat split; auto. { rewrite copy_at_len. auto. }
      rewrite copy_at_eq by lia. rewrite firstn_O. cbn [app]. rewrite firstn_app, Nat.sub_diag, firstn_O, app_nil_r. apply firstn_all.
Qed.
Definition md5_inv (msg : list Z) (c : md5_ctx) : Prop :=
  exists whole rest q, msg = whole ++ rest /\ length whole = (64 * q)%nat /\ (length rest < 64)%nat /\
    length (md_in c) = 64%nat /\ firstn (length rest) (md_in c) = rest /\
    md_buf c = fold_left md5_transform (blocks 64 whole) md5_iv /\
    0 <= md_lo c < W32 /\ 0 <= md_hi c < W32 /\ md_lo c + W32 * md_hi c = 8 * Z.of_nat (length msg) mod W64.
Lemma md5_inv_init : forall junk, length junk = 64%nat -> md5_inv [] (md5_init junk).
Proof. intros junk HL. exists [], [], 0%nat. rewrite blocks_nil, fl_nil. unfold md5_init, W32; cbn [md_in md_buf md_lo md_hi length firstn app]. repeat split; auto; lia. Qed.
Lemma md5_count : forall lo hi n w r q, 0 <= lo < W32 -> 0 <= hi -> lo + W32 * hi = 8 * Z.of_nat n mod W64 ->
  n = (w + r)%nat -> w = (64 * q)%nat -> (r < 64)%nat -> Z.to_nat (Z.land (Z.shiftr lo 3) 63) = r.
Proof.
  intros lo hi n w r q H1 H2 H3 Hn Hw Hr.
  rewrite (land_pow2 _ 6) by lia. rewrite Z.shiftr_div_pow2 by lia.
  assert (E : lo = 8 * Z.of_nat n mod W32).
  { assert (Z.of_nat n = Z.of_nat n) as _ by auto.
    assert (D := Z.div_mod (8 * Z.of_nat n) W64 ltac:(unfold W64; lia)). rewrite <- H3 in D.
    apply (Z.mod_unique_pos _ _ (W32 * (8 * Z.of_nat n / W64) + hi)); auto. rewrite D at 1.
    replace W64 with (W32 * W32) by reflexivity. ring. }
  assert (Z.of_nat n = 64 * Z.of_nat q + Z.of_nat r) by lia.
  assert (G : (lo / 2 ^ 3) mod 2 ^ 6 = Z.of_nat r).
  { rewrite E. unfold W32. Z.div_mod_to_equations. lia. }
  rewrite G. apply Nat2Z.id.
Qed.
Lemma md5_bits : forall lo hi n len, 0 <= lo < W32 -> 0 <= hi < W32 -> 0 <= len < W32 -> lo + W32 * hi = 8 * n mod W64 ->
  let lo' := add32 lo (shl32 len 3) in
  let hi' := add32 (if lo' <? lo then add32 hi 1 else hi) (Z.shiftr len 29) in
  0 <= lo' < W32 /\ 0 <= hi' < W32 /\ lo' + W32 * hi' = 8 * (n + len) mod W64.
Proof.
  intros lo hi n len H1 H2 H3 H4 lo' hi'.
  assert (P : forall x, 0 <= x mod W32 < W32) by (intros; apply Z.mod_pos_bound; unfold W32; lia).
  split; [apply P|]. split; [apply P|].
  set (s := shl32 len 3) in *. set (h := Z.shiftr len 29) in *.
  assert (ES : 8 * len = s + W32 * h).
  { unfold s, h, shl32. rewrite Z.shiftl_mul_pow2, Z.shiftr_div_pow2 by lia. unfold W32. Z.div_mod_to_equations. lia. }
  assert (PS : 0 <= s < W32) by apply P.
  assert (EC : lo + s = lo' + W32 * (if lo' <? lo then 1 else 0)).
  { unfold lo', add32. destruct (Z_lt_ge_dec (lo + s) W32) as [L|L].
    - rewrite Z.mod_small by lia. replace (lo + s <? lo) with false by (symmetry; apply Z.ltb_ge; lia). lia.
    - replace ((lo + s) mod W32) with (lo + s - W32).
      2:{ apply (Z.mod_unique_pos _ _ 1); lia. }
      replace (lo + s - W32 <? lo) with true by (symmetry; apply Z.ltb_lt; lia). lia. }
  assert (EH : exists k, hi + (if lo' <? lo then 1 else 0) + h = hi' + W32 * k).
  { assert (D : forall x, x = x mod W32 + W32 * (x / W32)) by (intros; pose proof (Z.div_mod x W32 ltac:(unfold W32; lia)); lia).
    unfold hi', add32. destruct (lo' <? lo).
    - exists ((hi + 1) / W32 + ((hi + 1) mod W32 + h) / W32). pose proof (D (hi + 1)). pose proof (D ((hi + 1) mod W32 + h)). lia.
    - exists ((hi + h) / W32). pose proof (D (hi + h)). lia. }
  destruct EH as (k & EH).
  assert (DN := Z.div_mod (8 * n) W64 ltac:(unfold W64; lia)). rewrite <- H4 in DN.
  apply (Z.mod_unique_pos _ _ (8 * n / W64 + k)).
  - assert (0 <= lo' < W32) by apply P. assert (0 <= hi' < W32) by apply P. unfold W64, W32 in *. lia.
  - replace (8 * (n + len)) with (8 * n + 8 * len) by ring. rewrite DN at 1. rewrite ES.
    replace W64 with (W32 * W32) in * by reflexivity.
    transitivity (W32 * W32 * (8 * n / (W32 * W32)) + (lo + s) + W32 * (hi + h)); [ring|].
    rewrite EC. transitivity (W32 * W32 * (8 * n / (W32 * W32)) + lo' + W32 * (hi + (if lo' <? lo then 1 else 0) + h)); [ring|].
    rewrite EH. ring.
Qed.
Lemma md5_inv_update : forall msg c msg2, Z.of_nat (length msg2) < W32 -> md5_inv msg c -> md5_inv (msg ++ msg2) (md5_update c msg2).
Proof.
  intros msg c msg2 HL (whole & rest & q & EM & LW & LR & LD & FD & ST & HLO & HHI & HC).
  unfold md5_update. cbv zeta.
  rewrite (Z.mod_small (Z.of_nat (length msg2))) by lia.
  rewrite (md5_count (md_lo c) (md_hi c) (length msg) (length whole) (length rest) q); auto; try lia.
  2:{ rewrite EM, app_length. reflexivity. }
  pose proof (md5_bits (md_lo c) (md_hi c) (Z.of_nat (length msg)) (Z.of_nat (length msg2)) HLO HHI ltac:(lia) HC) as HB.
  cbv zeta in HB. destruct HB as (B1 & B2 & B3).
  replace (Z.of_nat (length msg) + Z.of_nat (length msg2)) with (Z.of_nat (length (msg ++ msg2))) in B3 by (rewrite app_length; lia).
  destruct (length rest =? 0)%nat eqn:Q.
  - apply Nat.eqb_eq in Q. destruct rest; [|discriminate]. rewrite app_nil_r in EM. subst msg.
    destruct (md5_blocks_eq (length msg2) (md_buf c) (md_in c) msg2 LD (le_n _)) as (w & r & q' & i & E & M & LW' & LR' & LI & FI).
    rewrite E. exists (whole ++ w), r, (q + q')%nat. cbn [md_in md_buf md_lo md_hi].
    split; [rewrite M, app_assoc; auto|]. split; [rewrite app_length; lia|].
    repeat (split; [solve [auto]|]). split; [|repeat split; auto; lia].
    rewrite (blocks_app 64 q) by (auto; lia). rewrite fold_left_app, ST. reflexivity.
  - apply Nat.eqb_neq in Q. destruct (length msg2 <? 64 - length rest)%nat eqn:Q2.
    + apply Nat.ltb_lt in Q2. exists whole, (rest ++ msg2), q. cbn [md_in md_buf md_lo md_hi].
      split; [rewrite EM, app_assoc; auto|]. split; [auto|]. split; [rewrite app_length; lia|].
      split; [rewrite copy_at_len; auto|]. split; [|split; [auto|repeat split; auto; lia]].
      rewrite copy_at_eq by lia. rewrite FD, app_assoc. rewrite firstn_app, Nat.sub_diag, firstn_O, app_nil_r. apply firstn_all.
    + apply Nat.ltb_ge in Q2. set (u := (64 - length rest)%nat) in *.
      assert (LU : length (firstn u msg2) = u) by (apply firstn_length_le; auto).
      assert (C : copy_at (length rest) (firstn u msg2) (md_in c) = rest ++ firstn u msg2).
      { rewrite copy_at_eq by lia. rewrite FD, LU. rewrite (skipn_all2 (md_in c)) by lia. rewrite app_nil_r. reflexivity. }
      rewrite C. set (inb := rest ++ firstn u msg2).
      assert (LIB : length inb = 64%nat) by (unfold inb; rewrite app_length; lia).
      destruct (md5_blocks_eq (length (skipn u msg2)) (md5_transform (md_buf c) inb) inb (skipn u msg2) LIB (le_n _)) as (w & r & q' & i & E & M & LW' & LR' & LI & FI).
      rewrite E. exists ((whole ++ inb) ++ w), r, (q + 1 + q')%nat. cbn [md_in md_buf md_lo md_hi].
      split. { rewrite EM, <- !app_assoc. unfold inb. rewrite <- !app_assoc. do 2 f_equal. rewrite <- M. symmetry. apply firstn_skipn. }
      split; [rewrite !app_length; lia|]. repeat (split; [solve [auto]|]). split; [|repeat split; auto; lia].
      rewrite (blocks_app 64 (q + 1)) by (rewrite ?app_length; lia). rewrite (blocks_app 64 q) by (auto; lia).
      rewrite (blocks_one 64 inb) by (auto; lia). rewrite !fold_left_app, ST, fl_cons, fl_nil. reflexivity.
Qed.
Lemma md5_inv_chunks : forall chunks msg c, Forall (fun m => Z.of_nat (length m) < W32) chunks -> md5_inv msg c ->
  md5_inv (msg ++ concat chunks) (fold_left md5_update chunks c).
Proof.
  induction chunks as [|x r IH]; intros msg c HF H; cbn [fold_left concat].
  - rewrite app_nil_r. auto.
  - inversion HF; subst. rewrite app_assoc. apply IH; auto. apply md5_inv_update; auto.
Qed.
Lemma le_len : forall lo hi n, 0 <= lo < W32 -> 0 <= hi < W32 -> lo + W32 * hi = n ->
  le_bytes lo ++ le_bytes hi = little_endian 8 n.
Proof.
  intros lo hi n H1 H2 <-. unfold le_bytes, little_endian, byte_of, W32 in *. cbn [seq map app].
  repeat match goal with |- ?x :: _ = ?y :: _ => apply f_equal2 end; [..|reflexivity].
  all: match goal with |- context[Z.of_nat ?k] => let v := eval compute in (2 ^ (8 * Z.of_nat k)) in change (2 ^ (8 * Z.of_nat k)) with v end.
  all: Z.div_mod_to_equations; lia.
Qed.
Lemma md5_final_eq : forall msg c, md5_inv msg c ->
  md5_final_state c = fold_left md5_transform (blocks 64 (padded (little_endian 8) msg)) md5_iv.
Proof.
  intros msg c (whole & rest & q & EM & LW & LR & LD & FD & ST & HLO & HHI & HC).
  unfold md5_final_state.
  rewrite (md5_count (md_lo c) (md_hi c) (length msg) (length whole) (length rest) q); auto; try lia.
  2:{ rewrite EM, app_length. reflexivity. }
  rewrite (le_len _ _ _ HLO HHI HC). change (8 * Z.of_nat (length msg) mod W64) with (bit_length msg).
  assert (L8 : length (little_endian 8 (bit_length msg)) = 8%nat) by reflexivity.
  assert (SN : set_nth (length rest) 128 (md_in c) = (rest ++ [128]) ++ skipn (S (length rest)) (md_in c)).
  { rewrite set_nth_eq by lia. rewrite FD, <- app_assoc. reflexivity. }
  assert (FI : forall n, (S (length rest) + n <= 64)%nat ->
     fill n (length rest + 1) 0 (set_nth (length rest) 128 (md_in c)) =
     rest ++ [128] ++ repeat 0 n ++ skipn (S (length rest) + n) (md_in c)).
  { intros n Hn. rewrite fill_copy, copy_at_eq by (rewrite set_nth_len, repeat_length; lia).
    rewrite repeat_length, SN.
    replace (length rest + 1)%nat with (length (rest ++ [128])) by (rewrite app_length; reflexivity).
    rewrite firstn_app, Nat.sub_diag, firstn_O, app_nil_r, firstn_all.
    rewrite skipn_app. rewrite (skipn_all2 (rest ++ [128])) by lia. cbn [app].
    rewrite skipn_skipn'. rewrite <- app_assoc. rewrite app_length. cbn [length app].
    replace (length rest + 1 + n - (length rest + 1) + S (length rest))%nat with (S (length rest) + n)%nat by lia. reflexivity. }
  assert (W0 : (length whole mod 64 = 0)%nat) by (rewrite LW, Nat.mul_comm; apply Nat.mod_mul; lia).
  unfold padded. generalize dependent (bit_length msg). intros bl L8. rewrite EM, app_length, zeros_spec by auto.
  rewrite <- app_assoc. cbv zeta.
  assert (CP : forall d, length d = 64%nat -> copy_at 56 (little_endian 8 bl) d = firstn 56 d ++ little_endian 8 bl).
  { intros d Hd. rewrite copy_at_eq by lia. rewrite L8, (skipn_all2 d) by lia. rewrite app_nil_r. reflexivity. }
  destruct (64 - 1 - length rest <? 8)%nat eqn:Q.
  - apply Nat.ltb_lt in Q. replace (length rest <? 56)%nat with false by (symmetry; apply Nat.ltb_ge; lia).
    rewrite FI by lia.
    replace (S (length rest) + (64 - 1 - length rest))%nat with 64%nat by lia.
    rewrite (skipn_all2 (n := 64) (md_in c)) by lia. rewrite app_nil_r.
    set (b1 := rest ++ [128] ++ repeat 0 (64 - 1 - length rest)).
    assert (L1 : length b1 = 64%nat) by (unfold b1; rewrite !app_length, repeat_length; cbn [length]; lia).
    rewrite fill_copy, (copy_at_eq (repeat 0 56)) by (rewrite repeat_length; lia).
    rewrite CP by (rewrite !app_length, firstn_length, skipn_length, repeat_length; lia).
    rewrite firstn_O. cbn [app]. rewrite firstn_app, repeat_length, Nat.sub_diag, firstn_O, app_nil_r.
    rewrite (firstn_all2 (repeat 0 56)) by (rewrite repeat_length; lia).
    replace (whole ++ rest ++ 128 :: repeat 0 (119 - length rest) ++ little_endian 8 bl)
      with (whole ++ b1 ++ (repeat 0 56 ++ little_endian 8 bl)).
    2:{ f_equal. unfold b1. rewrite <- !app_assoc. f_equal. change ([128] ++ ?x) with (128 :: x). apply f_equal2; [reflexivity|].
        rewrite app_assoc, <- repeat_app.
        replace (64 - 1 - length rest + 56)%nat with (119 - length rest)%nat by lia. reflexivity. }
    rewrite (blocks_app 64 q) by (auto; lia). rewrite blocks_cons by (auto; lia).
    rewrite (blocks_one 64 (repeat 0 56 ++ _)); [|lia|rewrite app_length, repeat_length, L8; lia].
    rewrite fold_left_app, ?fl_cons, fl_nil. rewrite <- ST. reflexivity.
  - apply Nat.ltb_ge in Q. replace (length rest <? 56)%nat with true by (symmetry; apply Nat.ltb_lt; lia).
    rewrite FI by lia.
    rewrite CP.
    2:{ rewrite !app_length, repeat_length, skipn_length, LD. cbn [length]. lia. }
    rewrite (blocks_app 64 q) by (auto; lia).
    rewrite (blocks_one 64 (rest ++ _)); [|lia|rewrite app_length; cbn [length]; rewrite app_length, repeat_length, L8; lia].
    rewrite fold_left_app, ?fl_cons, fl_nil. rewrite <- ST. f_equal.
    replace (64 - 1 - length rest - 8)%nat with (55 - length rest)%nat by lia.
    cbn [app]. rewrite firstn_app. rewrite (firstn_all2 (n := 56) rest) by lia.
    replace (56 - length rest)%nat with (S (55 - length rest)) by lia. cbn [firstn].
    rewrite firstn_app, repeat_length, Nat.sub_diag, firstn_O, app_nil_r.
    rewrite (firstn_all2 (repeat 0 (55 - length rest))) by (rewrite repeat_length; lia).
    rewrite <- app_assoc. reflexivity.
Qed.
Lemma md5_digest_ok : forall junk chunks, length junk = 64%nat -> bytes (concat chunks) ->
  Forall (fun m => Z.of_nat (length m) < W32) chunks -> md5_digest junk chunks = MD5_spec (concat chunks).
Proof.
  intros junk chunks HJ HB HF. unfold md5_digest.
  rewrite (md5_final_eq (concat chunks)).
  2:{ change (concat chunks) with ([] ++ concat chunks). apply md5_inv_chunks; auto. apply md5_inv_init. auto. }
  unfold MD5_spec. rewrite (flat_map_ext' le_bytes (little_endian 4)) by apply le_bytes_eq. f_equal.
  apply (fold_tr 4); [apply md5_transform_eq|intros; apply compress5_len; auto|reflexivity|].
  apply padded_blocks; auto. intros. apply little_endian_bytes.
Qed.
