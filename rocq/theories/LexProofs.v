(** Lexer: reading and putting back, words, numbers, strings. *)
From Coq Require Import ZArith List Bool Lia.
Import ListNotations.
From Verif Require Import Bits UtfModel UtfSpec UtfProofs CodecModel JsonModel MiscModel MiscSpec MiscProofs LexModel LexSpec.
Local Open Scope Z_scope.

(** ** The state at a place *)
Definition here (b : bool) (pre s : list Z) : lexer := mkLex (pre ++ s) (length pre) [] b.
Lemma here_app : forall b pre c s, here b pre (c :: s) = mkLex ((pre ++ [c]) ++ s) (length pre) [] b.
Proof. intros. unfold here. rewrite <- app_assoc. reflexivity. Qed.
Lemma at_end : forall pre, at_ pre (length pre) = 0.
Proof. intros. unfold at_. apply nth_overflow. lia. Qed.
Lemma at_mid : forall pre c s, at_ (pre ++ c :: s) (length pre) = c.
Proof. intros. unfold at_. apply nth_middle. Qed.
Lemma at_last : forall pre c s, at_ ((pre ++ [c]) ++ s) (length (pre ++ [c]) - 1) = c.
Proof. intros. rewrite app_length. simpl. rewrite Nat.add_sub, <- app_assoc. apply at_mid. Qed.

Lemma get_here : forall b pre c s, c <> 0 -> getchar (here b pre (c :: s)) = (c, here b (pre ++ [c]) s).
Proof.
  intros b pre c s Hc. unfold getchar. cbn [here unch length getchar_n read1 src cur inStr].
  rewrite at_mid. destruct (c =? 0) eqn:E; [zb|].
  assert (X : mkLex (pre ++ c :: s) (S (length pre)) [] b = here b (pre ++ [c]) s).
  { unfold here. rewrite <- app_assoc, app_length. cbn [app length]. rewrite Nat.add_1_r. reflexivity. }
  rewrite X. destruct (b && (c =? 92) && (beside (here b (pre ++ [c]) s) =? 10)) eqn:E2; [exfalso|reflexivity].
  apply andb_true_iff in E2. destruct E2 as [E2 E3]. apply andb_true_iff in E2. destruct E2 as [_ E2].
  unfold beside, here in E3. cbn [unch src cur] in E3. rewrite at_last in E3. zb.
Qed.
Lemma get_end : forall b pre, getchar (here b pre []) = (0, here b pre []).
Proof.
  intros b pre. unfold getchar. cbn [here unch length getchar_n read1 src cur inStr]. rewrite app_nil_r, at_end.
  change (0 =? 0) with true. change (0 =? 92) with false. rewrite andb_false_r. cbv iota. unfold here. now rewrite app_nil_r.
Qed.
Lemma unget_here : forall b pre c s, c <> 0 -> ungetc c (here b (pre ++ [c]) s) = Some (here b pre (c :: s)).
Proof.
  intros b pre c s Hc. unfold ungetc. destruct (c =? 0) eqn:E; [zb|]. cbn [here unch cur src length].
  rewrite at_last, Z.eqb_refl, app_length. cbn [length Nat.eqb andb].
  destruct (0 <? Z.of_nat (length pre + 1)) eqn:E2; [|zb]. cbn [andb].
  rewrite Nat.add_sub. cbn [inStr]. now rewrite here_app.
Qed.
Lemma unget_0 : forall l, ungetc 0 l = Some l.
Proof. reflexivity. Qed.
(** Reading what follows and putting it back *)
Lemma peek : forall b pre s c l, Forall (fun c => 0 < c) s -> getchar (here b pre s) = (c, l) ->
  c = hd 0 s /\ ungetc c l = Some (here b pre s).
Proof.
  intros b pre [|x s] c l H E.
  - rewrite get_end in E. injection E as <- <-. auto.
  - inversion H; subst. rewrite get_here in E by lia. injection E as <- <-. split; auto. apply unget_here. lia.
Qed.
Lemma left_here : forall b pre s, left_ (here b pre s) = length s.
Proof. intros. unfold left_, here. cbn [unch src cur length]. rewrite app_length. lia. Qed.

(** ** Characters *)
Lemma is_ws_iff : forall c, is_ws c = true <-> white c.
Proof. intros. unfold is_ws, white. rewrite !orb_true_iff, !Z.eqb_eq. tauto. Qed.
Lemma isdigit_iff : forall c, isdigit c = true <-> digit c.
Proof. intros. unfold isdigit, digit. rewrite andb_true_iff, !Z.leb_le. tauto. Qed.
Lemma isalpha_iff : forall c, isalpha c = true <-> letter c /\ c <> 95 /\ c <> 36.
Proof. intros. unfold isalpha, letter. rewrite orb_true_iff, !andb_true_iff, !Z.leb_le. lia. Qed.
Lemma isalnum_iff : forall c, isalnum c = true <-> (letter c /\ c <> 95 /\ c <> 36) \/ digit c.
Proof. intros. unfold isalnum. rewrite orb_true_iff, isalpha_iff, isdigit_iff. tauto. Qed.
Lemma word_start_iff : forall c, word_start c = true <-> letter c.
Proof. intros. unfold word_start. rewrite !orb_true_iff, isalpha_iff, !Z.eqb_eq. unfold letter. lia. Qed.
Lemma word_char_iff : forall c, word_char c = true <-> letter c \/ digit c.
Proof. intros. unfold word_char. rewrite !orb_true_iff, isalnum_iff, !Z.eqb_eq. unfold letter, digit. lia. Qed.
Lemma isxdigit_iff : forall c, isxdigit c = true <-> hexdigit c.
Proof.
  intros. unfold isxdigit, CodecModel.isdigit, hexdigit, digit. rewrite ?orb_true_iff, ?andb_true_iff, ?Z.leb_le, ?Z.ltb_lt. lia.
Qed.
Lemma false_iff : forall b (P : Prop), (b = true <-> P) -> (b = false <-> ~ P).
Proof. intros [|] P H; split; intros; try discriminate; try tauto. intros HP. apply H in HP. discriminate. Qed.

(** ** White space *)
Lemma skip_ws_here : forall v fuel pre c s, Forall white v -> ~ white c -> c <> 0 -> (length v < fuel)%nat ->
  skip_ws fuel (here false pre (v ++ c :: s)) = Some (c, here false (pre ++ v ++ [c]) s).
Proof.
  induction v as [|x v IH]; intros fuel pre c s Hv Hc Hn Hf; destruct fuel as [|fuel]; try (cbn in Hf; lia).
  - cbn [skip_ws app]. rewrite get_here by auto. rewrite (proj2 (false_iff _ _ (is_ws_iff c)) Hc). reflexivity.
  - inversion Hv; subst. cbn [skip_ws app]. assert (x <> 0) by (unfold white in *; lia).
    rewrite get_here by auto. rewrite (proj2 (is_ws_iff x)) by auto.
    rewrite IH by (auto; cbn in Hf; lia). rewrite <- app_assoc. reflexivity.
Qed.
Lemma skip_ws_end : forall v fuel pre, Forall white v -> (length v < fuel)%nat ->
  skip_ws fuel (here false pre v) = Some (0, here false (pre ++ v) []).
Proof.
  induction v as [|x v IH]; intros fuel pre Hv Hf; destruct fuel as [|fuel]; try (cbn in Hf; lia).
  - cbn [skip_ws]. rewrite get_end. change (is_ws 0) with false. cbv iota. now rewrite app_nil_r.
  - inversion Hv; subst. cbn [skip_ws]. assert (x <> 0) by (unfold white in *; lia).
    rewrite get_here by auto. rewrite (proj2 (is_ws_iff x)) by auto. rewrite IH by (auto; cbn in Hf; lia).
    rewrite <- app_assoc. reflexivity.
Qed.
(** Characters put back that are white space *)
Definition with_back (w pre s : list Z) : lexer := mkLex (pre ++ s) (length pre) w false.
Lemma get_back : forall x w pre s, getchar (with_back (x :: w) pre s) = (x, with_back w pre s).
Proof. reflexivity. Qed.
Lemma skip_ws_back : forall w fuel pre s, Forall white w -> (length w < fuel)%nat ->
  skip_ws fuel (with_back w pre s) = skip_ws (fuel - length w) (here false pre s).
Proof.
  induction w as [|x w IH]; intros fuel pre s Hw Hf.
  - rewrite Nat.sub_0_r. reflexivity.
  - inversion Hw; subst. destruct fuel as [|fuel]; [cbn in Hf; lia|]. cbn [skip_ws]. rewrite get_back.
    rewrite (proj2 (is_ws_iff x)) by auto. rewrite IH by (auto; cbn in Hf; lia). reflexivity.
Qed.
Lemma left_back : forall w pre s, left_ (with_back w pre s) = (length w + length s)%nat.
Proof. intros. unfold left_, with_back. cbn [unch src cur]. rewrite app_length. lia. Qed.

(** ** Words *)
Lemma word_loop_here : forall w fuel pre c0 w0 r, Forall (fun c => letter c \/ digit c) w ->
  (length (w0 ++ w) < 1020)%nat -> Forall (fun c => 0 < c) r -> not_next (fun c => letter c \/ digit c) r -> (length w < fuel)%nat ->
  word_loop fuel (here false pre (w ++ r)) c0 w0 = Some (w0 ++ w, here false (pre ++ w) r).
Proof.
  induction w as [|x w IH]; intros fuel pre c0 w0 r Hw HL Hr Hn Hf; destruct fuel as [|fuel]; try (cbn in Hf; lia); cbn [word_loop].
  - rewrite app_nil_r in *. destruct (Nat.leb_spec 1020 (length w0)); [lia|]. cbn [app].
    destruct (getchar (here false pre r)) as [c l] eqn:E. destruct (peek _ _ _ _ _ Hr E) as [-> EU].
    assert (W : word_char (hd 0 r) = false).
    { apply (false_iff _ _ (word_char_iff (hd 0 r))). destruct r; [cbn; unfold letter, digit; lia | exact Hn]. }
    rewrite W, EU, app_nil_r. reflexivity.
  - inversion Hw; subst. rewrite app_length in HL. cbn [length] in HL.
    destruct (Nat.leb_spec 1020 (length w0)); [lia|]. cbn [app].
    assert (x <> 0) by (unfold letter, digit in *; lia).
    rewrite get_here by auto. rewrite (proj2 (word_char_iff x)) by auto.
    rewrite IH; auto; [|rewrite !app_length in *; cbn [length] in *; lia | cbn in Hf; lia].
    rewrite <- !app_assoc. reflexivity.
Qed.
Lemma eqb_text_iff : forall a b, eqb_text a b = true <-> a = b.
Proof.
  induction a as [|x a IH]; intros [|y b]; cbn; split; intros H; try discriminate; auto.
  - apply andb_true_iff in H. destruct H as [H1 H2]. apply Z.eqb_eq in H1. apply IH in H2. congruence.
  - injection H as -> ->. rewrite Z.eqb_refl. apply IH. reflexivity.
Qed.
Lemma iskey_iff : forall w, iskey w = true <-> In w keywords.
Proof.
  intros w. unfold iskey. rewrite existsb_exists. split.
  - intros (x & Hx & E). apply eqb_text_iff in E. congruence.
  - intros H. exists w. split; auto. apply eqb_text_iff. reflexivity.
Qed.
Definition incl_b (a b : list (list Z)) : bool := forallb (fun x => existsb (eqb_text x) b) a.
Lemma incl_b_ok : forall a b, incl_b a b = true -> forall x, In x a -> In x b.
Proof.
  intros a b H x Hx. unfold incl_b in H. rewrite forallb_forall in H. specialize (H x Hx).
  apply existsb_exists in H. destruct H as (y & Hy & E). apply eqb_text_iff in E. congruence.
Qed.
Lemma keywords_reserved : forall w, hd 0 w <> 46 -> In w keywords <-> In w reserved.
Proof.
  intros w Hw. split; intros H.
  - assert (G : In w ([46; 46; 46] :: reserved)) by (revert H; apply incl_b_ok; vm_compute; reflexivity).
    destruct G as [<- | G]; [exfalso; apply Hw; reflexivity | exact G].
  - revert H. apply incl_b_ok. vm_compute. reflexivity.
Qed.

(** ** Strings *)
Lemma escape1_ok : forall n v, escaped n v -> escape1 n = v /\ n <> 117.
Proof.
  intros n v H. unfold escape1. cbn [escaped In] in H.
  repeat match goal with |- context [?a =? ?b] => destruct (Z.eqb_spec a b) end; unfold escaped in H; cbn [In] in H; lia.
Qed.
Lemma hex_digit_is : forall c v, digit_is 16 c v -> isxdigit c = true /\ from_hex_char c = v /\ 0 <= v < 16 /\ c <> 0.
Proof.
  intros c v (Hv & H).
  assert (E : In c [48;49;50;51;52;53;54;55;56;57;65;66;67;68;69;70;97;98;99;100;101;102]) by (cbn; lia).
  cbn in E. repeat (destruct E as [<- | E]; [repeat split; try reflexivity; try lia; cbv; lia | ]). contradiction.
Qed.
Lemma numeral4 : forall a b c d u, numeral 16 [a; b; c; d] u -> exists v1 v2 v3 v4,
  digit_is 16 a v1 /\ digit_is 16 b v2 /\ digit_is 16 c v3 /\ digit_is 16 d v4 /\ u = ((v1 * 16 + v2) * 16 + v3) * 16 + v4.
Proof.
  assert (S1 : forall s n, numeral 16 s n -> forall x y, s = x ++ [y] -> x <> [] ->
    exists m v, numeral 16 x m /\ digit_is 16 y v /\ n = m * 16 + v).
  { intros s n H x y E Hx. inversion H as [c v Hd E1 E2 | s' n' c v Hs Hd E1 E2]; subst.
    - destruct x as [|a [|b x]]; [contradiction|discriminate|discriminate].
    - apply app_inj_tail in E1. destruct E1 as [-> ->]. eauto. }
  intros a b c d u H.
  destruct (S1 _ _ H [a; b; c] d eq_refl) as (m3 & v4 & H3 & D4 & ->); [discriminate|].
  destruct (S1 _ _ H3 [a; b] c eq_refl) as (m2 & v3 & H2 & D3 & ->); [discriminate|].
  destruct (S1 _ _ H2 [a] b eq_refl) as (m1 & v2 & H1 & D2 & ->); [discriminate|].
  inversion H1 as [c0 v1 D1 E1 E2 | s' n' c0 v Hs Hd E1 E2]; subst.
  - exists m1, v2, v3, v4. auto.
  - destruct s' as [|x s']; [inversion Hs; match goal with K : _ ++ [_] = [] |- _ => destruct (app_cons_not_nil _ _ _ (eq_sym K)) end|].
    injection E1 as _ E1. destruct s'; discriminate.
Qed.
Lemma land63 : forall x, 0 <= x -> Z.land x 63 = x mod 64.
Proof. intros. change 63 with (Z.ones 6). rewrite Z.land_ones by lia. reflexivity. Qed.
Lemma utf_decode4_utf8 : forall a b c d u, numeral 16 [a; b; c; d] u -> utf_decode4 [a; b; c; d] = Some (utf8 u) /\ 0 <= u < 65536.
Proof.
  intros a b c d u H. destruct (numeral4 _ _ _ _ _ H) as (v1 & v2 & v3 & v4 & D1 & D2 & D3 & D4 & E).
  destruct (hex_digit_is _ _ D1) as (X1 & F1 & B1 & _). destruct (hex_digit_is _ _ D2) as (X2 & F2 & B2 & _).
  destruct (hex_digit_is _ _ D3) as (X3 & F3 & B3 & _). destruct (hex_digit_is _ _ D4) as (X4 & F4 & B4 & _).
  unfold utf_decode4, at_. cbn [nth]. rewrite X1, X2, X3, X4, F1, F2, F3, F4. cbn [andb].
  rewrite !Z.shiftl_mul_pow2 by lia.
  replace (v1 * 2 ^ 12 + v2 * 2 ^ 8 + v3 * 2 ^ 4 + v4) with u by lia.
  split; [|lia]. f_equal. assert (Hu : 0 <= u < 65536) by lia. clear - Hu. unfold utf8.
  change 0x80 with 128. change 0x800 with 2048. change 0x10000 with 65536. change 0xc0 with 192. change 0xe0 with 224. change 0x3f with 63.
  assert (L63 : forall x, Z.land x 63 = x mod 64) by (intros; apply (land_pow2 x 6); lia).
  destruct (u <? 128) eqn:Y1; [auto|]. b2p.
  destruct (u <? 2048) eqn:Y2; b2p.
  - rewrite !shiftr_div, L63 by lia. change (2 ^ 6) with 64.
    rewrite (lor_add 3 6) by (try lia; change (2 ^ 6) with 64; Z.div_mod_to_equations; lia).
    rewrite (lor_add 2 6) by (try lia; change (2 ^ 6) with 64; Z.div_mod_to_equations; lia). reflexivity.
  - destruct (u <? 65536) eqn:Y3; [|b2p; lia].
    rewrite !shiftr_div, !L63 by lia. change (2 ^ 6) with 64. change (2 ^ 12) with 4096.
    rewrite (lor_add 14 4) by (try lia; change (2 ^ 4) with 16; Z.div_mod_to_equations; lia).
    rewrite !(lor_add 2 6) by (try lia; change (2 ^ 6) with 64; Z.div_mod_to_equations; lia). reflexivity.
Qed.
