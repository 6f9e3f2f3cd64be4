From Coq Require Import ZArith List Bool Lia.
Import ListNotations.
From Verif Require Import Bits UtfModel UtfSpec.
Local Open Scope Z_scope.

Ltac zdm := Z.div_mod_to_equations; lia.

Lemma lor_tag : forall t k n y, t = k * 2 ^ n -> 0 <= n -> 0 <= y < 2 ^ n -> Z.lor t y = t + y.
Proof. intros; subst; apply lor_add; auto. Qed.

Lemma ldiff_tag' : forall t k n y, t = k * 2 ^ n -> 0 <= n -> 0 <= y < 2 ^ n -> Z.ldiff (t + y) t = y.
Proof. intros; subst; apply ldiff_tag; auto. Qed.

(** encoding *)
Lemma encode_utf8 : forall c, codepoint c -> unichar_to_utf c = utf8 c.
Proof.
  intros c Hc. unfold codepoint in Hc. unfold unichar_to_utf, utf8.
  assert (L63 : Z.land c 63 = c mod 64) by (apply (land_pow2 c 6); lia).
  destruct (c <=? 127) eqn:E1, (c <? 128) eqn:E1'; try lia; auto.
  destruct (c <=? 2047) eqn:E2, (c <? 2048) eqn:E2'; try lia.
  { rewrite L63, (land_shift_field c 6 5 0x7c0) by (auto; lia).
    rewrite (lor_tag 0xc0 3 6) by (try reflexivity; try lia; zdm).
    rewrite (lor_tag 0x80 2 6) by (try reflexivity; try lia; zdm).
    change (2 ^ 6) with 64. change (2 ^ 5) with 32. replace ((c / 64) mod 32) with (c / 64) by zdm. reflexivity. }
  destruct (c <=? 65535) eqn:E3, (c <? 65536) eqn:E3'; try lia.
  { rewrite L63, (land_shift_field c 12 4 0xf000), (land_shift_field c 6 6 0xfc0) by (auto; lia).
    rewrite (lor_tag 0xe0 7 5) by (try reflexivity; try lia; zdm).
    rewrite !(lor_tag 0x80 2 6) by (try reflexivity; try lia; zdm).
    change (2 ^ 6) with 64. change (2 ^ 12) with 4096. change (2 ^ 4) with 16. replace ((c / 4096) mod 16) with (c / 4096) by zdm. reflexivity. }
  { rewrite L63, (land_shift_field c 18 3 0x1c0000), (land_shift_field c 12 6 0x3f000), (land_shift_field c 6 6 0xfc0) by (auto; lia).
    rewrite (lor_tag 0xf0 15 4) by (try reflexivity; try lia; zdm).
    rewrite !(lor_tag 0x80 2 6) by (try reflexivity; try lia; zdm).
    change (2 ^ 6) with 64. change (2 ^ 12) with 4096. change (2 ^ 18) with 262144. change (2 ^ 3) with 8. replace ((c / 262144) mod 8) with (c / 262144) by zdm. reflexivity. }
Qed.

Lemma is_cont_true : forall y, 0 <= y < 64 -> is_cont (128 + y) = true.
Proof. intros y Hy. apply (range_forall 64 (fun y => is_cont (128 + y))); [vm_compute; reflexivity|lia]. Qed.
Lemma is_cont_low : forall y, 0 <= y < 128 -> is_cont y = false.
Proof.
  intros y Hy. assert (negb (is_cont y) = true); [|destruct (is_cont y); auto].
  apply (range_forall 128 (fun y => negb (is_cont y))); [vm_compute; reflexivity|lia].
Qed.
Lemma is_cont_high : forall y, 0 <= y < 64 -> is_cont (192 + y) = false.
Proof.
  intros y Hy. assert (negb (is_cont (192 + y)) = true) as H; [|destruct (is_cont (192 + y)); auto].
  apply (range_forall 64 (fun y => negb (is_cont (192 + y)))); [vm_compute; reflexivity|lia].
Qed.

Lemma utf8_length : forall c, (0 < length (utf8 c) <= 4)%nat.
Proof. intros c. unfold utf8. repeat (destruct (_ <? _)); simpl; lia. Qed.

Lemma ldiff_cont : forall y, 0 <= y < 64 -> Z.ldiff (128 + y) 128 = y.
Proof. intros y Hy. apply (ldiff_tag 1 7 y); simpl; lia. Qed.

Lemma decode_utf8 : forall c r, codepoint c -> utf_to_unichar (utf8 c ++ r) = (c, length (utf8 c)).
Proof.
  intros c r Hc. unfold codepoint in Hc. unfold utf8.
  destruct (c <? 128) eqn:E1.
  { unfold utf_to_unichar, at_; cbn [app nth length]. destruct (c <? 192) eqn:E; [auto|lia]. }
  destruct (c <? 2048) eqn:E2.
  { unfold utf_to_unichar, at_; cbn [app nth length].
    assert (A : 0 <= c / 64 < 32) by zdm. assert (B : 0 <= c mod 64 < 64) by zdm.
    destruct (192 + c / 64 <? 192) eqn:F1; [lia|]. destruct (192 + c / 64 <? 224) eqn:F2; [|lia].
    rewrite is_cont_true, ldiff_cont by auto.
    rewrite (ldiff_tag' 192 3 6 (c / 64)) by (try reflexivity; lia). rewrite shiftl_mul, lor_add by lia.
    f_equal. change (2 ^ 6) with 64. zdm. }
  destruct (c <? 65536) eqn:E3.
  { unfold utf_to_unichar, at_; cbn [app nth length].
    assert (A : 0 <= c / 4096 < 16) by zdm. assert (B : 0 <= c mod 64 < 64) by zdm.
    assert (C : 0 <= (c / 64) mod 64 < 64) by zdm.
    destruct (224 + c / 4096 <? 192) eqn:F1; [lia|]. destruct (224 + c / 4096 <? 224) eqn:F2; [lia|].
    destruct (224 + c / 4096 <? 240) eqn:F3; [|lia].
    rewrite !is_cont_true, !ldiff_cont by auto. cbn [andb].
    rewrite (ldiff_tag' 224 7 5 (c / 4096)) by (try reflexivity; lia). rewrite !shiftl_mul by lia.
    rewrite (lor_add (c / 4096) 12) by (change (2 ^ 12) with 4096; change (2 ^ 6) with 64; lia).
    replace (c / 4096 * 2 ^ 12 + (c / 64) mod 64 * 2 ^ 6) with ((c / 4096 * 64 + (c / 64) mod 64) * 2 ^ 6) by (change (2 ^ 12) with 4096; change (2 ^ 6) with 64; lia).
    rewrite lor_add by lia. f_equal. change (2 ^ 6) with 64. zdm. }
  { unfold utf_to_unichar, at_; cbn [app nth length].
    assert (A : 0 <= c / 262144 < 8) by zdm. assert (B : 0 <= c mod 64 < 64) by zdm.
    assert (C : 0 <= (c / 64) mod 64 < 64) by zdm. assert (D : 0 <= (c / 4096) mod 64 < 64) by zdm.
    destruct (240 + c / 262144 <? 192) eqn:F1; [lia|]. destruct (240 + c / 262144 <? 224) eqn:F2; [lia|].
    destruct (240 + c / 262144 <? 240) eqn:F3; [lia|]. destruct (240 + c / 262144 <? 248) eqn:F4; [|lia].
    rewrite !is_cont_true, !ldiff_cont by auto. cbn [andb].
    rewrite (ldiff_tag' 240 15 4 (c / 262144)) by (try reflexivity; lia). rewrite !shiftl_mul by lia.
    change (2 ^ 12) with (64 * 64) at 1.
    rewrite (lor_add (c / 262144) 18) by (change (2 ^ 18) with 262144; change (2 ^ 12) with 4096; lia).
    replace (c / 262144 * 2 ^ 18 + (c / 4096) mod 64 * (64 * 64)) with ((c / 262144 * 64 + (c / 4096) mod 64) * 2 ^ 12) by (change (2 ^ 18) with 262144; change (2 ^ 12) with 4096; lia).
    rewrite (lor_add _ 12) by (change (2 ^ 12) with 4096; change (2 ^ 6) with 64; lia).
    replace ((c / 262144 * 64 + (c / 4096) mod 64) * 2 ^ 12 + (c / 64) mod 64 * 2 ^ 6) with
      (((c / 262144 * 64 + (c / 4096) mod 64) * 64 + (c / 64) mod 64) * 2 ^ 6) by (change (2 ^ 12) with 4096; change (2 ^ 6) with 64; lia).
    rewrite lor_add by lia. f_equal. change (2 ^ 6) with 64. zdm. }
Qed.

Lemma numbytes_utf8 : forall c r, codepoint c -> num_utf_bytes (at_ (utf8 c ++ r) 0) = Z.of_nat (length (utf8 c)).
Proof.
  intros c r Hc. unfold codepoint in Hc. unfold utf8.
  destruct (c <? 128) eqn:E1.
  { cbn [app length at_ nth]. unfold at_; simpl nth. apply Z.eqb_eq.
    apply (range_forall 128 (fun y => num_utf_bytes y =? 1)); [vm_compute; reflexivity|lia]. }
  destruct (c <? 2048) eqn:E2.
  { unfold at_; cbn [app length nth]. apply Z.eqb_eq. assert (0 <= c / 64 < 32) by zdm.
    apply (range_forall 32 (fun y => num_utf_bytes (192 + y) =? 2)); [vm_compute; reflexivity|lia]. }
  destruct (c <? 65536) eqn:E3.
  { unfold at_; cbn [app length nth]. apply Z.eqb_eq. assert (0 <= c / 4096 < 16) by zdm.
    apply (range_forall 16 (fun y => num_utf_bytes (224 + y) =? 3)); [vm_compute; reflexivity|lia]. }
  { unfold at_; cbn [app length nth]. apply Z.eqb_eq. assert (0 <= c / 262144 < 8) by zdm.
    apply (range_forall 8 (fun y => num_utf_bytes (240 + y) =? 4)); [vm_compute; reflexivity|lia]. }
Qed.

Lemma count_starts_app : forall a b, count_starts (a ++ b) = count_starts a + count_starts b.
Proof. induction a as [|x a IH]; intros b; cbn [app count_starts]; [lia|]. rewrite IH. lia. Qed.
Lemma count_utf8 : forall c, codepoint c -> count_starts (utf8 c) = 1.
Proof.
  intros c Hc. unfold codepoint in Hc. unfold utf8.
  assert (B : 0 <= c mod 64 < 64) by zdm.
  assert (C : 0 <= (c / 64) mod 64 < 64) by zdm. assert (D : 0 <= (c / 4096) mod 64 < 64) by zdm.
  destruct (c <? 128) eqn:E1; [cbn; rewrite is_cont_low by lia; auto|].
  destruct (c <? 2048) eqn:E2.
  { cbn [count_starts]. rewrite is_cont_high by zdm. rewrite is_cont_true by auto. auto. }
  destruct (c <? 65536) eqn:E3.
  { cbn [count_starts]. replace (224 + c / 4096) with (192 + (32 + c / 4096)) by lia.
    rewrite is_cont_high by zdm. rewrite !is_cont_true by auto. auto. }
  { cbn [count_starts]. replace (240 + c / 262144) with (192 + (48 + c / 262144)) by lia.
    rewrite is_cont_high by zdm. rewrite !is_cont_true by auto. auto. }
Qed.
Lemma count_text : forall cs, Forall codepoint cs -> count_starts (text cs) = Z.of_nat (length cs).
Proof.
  induction cs as [|c cs IH]; intros H; auto. inversion H; subst.
  cbn [text flat_map]. fold (text cs). rewrite count_starts_app, count_utf8, IH by auto. cbn [length]. lia.
Qed.

Lemma step_utf8 : forall c r, codepoint c -> utf_step (utf8 c ++ r) = length (utf8 c).
Proof.
  intros c r Hc. unfold utf_step. rewrite decode_utf8 by auto. cbn [snd].
  destruct (negb _) eqn:E; auto. apply negb_false_iff in E.
  pose proof (numbytes_utf8 c r Hc) as H. unfold num_utf_bytes in H. rewrite E in H. lia.
Qed.
Lemma utf8_nonempty : forall c r, utf8 c ++ r <> [].
Proof. intros c r H. pose proof (utf8_length c). apply app_eq_nil in H. destruct H as [H _]. rewrite H in *. simpl in *. lia. Qed.
Lemma skipn_app_exact : forall A (a b : list A), skipn (length a) (a ++ b) = b.
Proof. intros A a b. induction a; simpl; auto. Qed.

Lemma offset_text : forall n cs, Forall codepoint cs ->
  index_to_offset (text cs) n = length (text (firstn n cs)).
Proof.
  induction n as [|n IH]; intros cs H; [now destruct cs|].
  destruct cs as [|c cs]; [reflexivity|]. inversion H; subst.
  cbn [text flat_map firstn]. fold (text cs). fold (text (firstn n cs)).
  cbn [index_to_offset]. destruct (utf8 c ++ text cs) eqn:E; [destruct (utf8_nonempty c (text cs) E)|].
  rewrite <- E. rewrite step_utf8, skipn_app_exact, IH, app_length by auto. reflexivity.
Qed.
Lemma at_index_text : forall n cs, Forall codepoint cs ->
  utf_at_index (text cs) n = if (n <=? length cs)%nat then Some (text (skipn n cs)) else None.
Proof.
  induction n as [|n IH]; intros cs H; [now destruct cs|].
  destruct cs as [|c cs]; [reflexivity|]. inversion H; subst.
  cbn [text flat_map length skipn]. fold (text cs).
  cbn [utf_at_index]. destruct (utf8 c ++ text cs) eqn:E; [destruct (utf8_nonempty c (text cs) E)|].
  rewrite <- E. rewrite step_utf8, skipn_app_exact, IH by auto. reflexivity.
Qed.

Lemma text_app : forall a b, text (a ++ b) = text a ++ text b.
Proof. intros; unfold text; apply flat_map_app. Qed.
Lemma text_split : forall n cs, text cs = text (firstn n cs) ++ text (skipn n cs).
Proof. intros. rewrite <- text_app, firstn_skipn. auto. Qed.
Lemma skipn_text : forall n cs, skipn (length (text (firstn n cs))) (text cs) = text (skipn n cs).
Proof. intros. rewrite (text_split n cs) at 1. apply skipn_app_exact. Qed.
Lemma firstn_app_exact : forall A (a b : list A), firstn (length a) (a ++ b) = a.
Proof. intros A a b. induction a; simpl; [now destruct b|]. now f_equal. Qed.
Lemma firstn_text : forall n cs, firstn (length (text (firstn n cs))) (text cs) = text (firstn n cs).
Proof. intros. rewrite (text_split n cs) at 1. apply firstn_app_exact. Qed.

Lemma text_ascii : forall cs, Forall codepoint cs ->
  Z.of_nat (length cs) = Z.of_nat (length (text cs)) -> text cs = cs /\ Forall (fun c => c < 128) cs.
Proof.
  assert (LE : forall cs, (length cs <= length (text cs))%nat).
  { induction cs as [|c cs IH]; simpl; auto. rewrite app_length. pose proof (utf8_length c). lia. }
  induction cs as [|c cs IH]; intros H E; [auto|]. inversion H; subst.
  cbn [text flat_map length] in *. fold (text cs) in *. rewrite app_length in E.
  pose proof (utf8_length c). specialize (LE cs).
  assert (L1 : length (utf8 c) = 1%nat) by lia.
  destruct IH as [A B]; auto; [lia|]. rewrite A.
  assert (c < 128).
  { unfold utf8 in L1. destruct (c <? 128) eqn:E1; [lia|].
    destruct (c <? 2048); [discriminate|]. destruct (c <? 65536); discriminate. }
  unfold utf8. destruct (c <? 128) eqn:E1; [|lia]. auto.
Qed.
