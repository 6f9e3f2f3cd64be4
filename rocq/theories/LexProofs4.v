(** Lexer: the tokens of a program; every program is read to its end. *)
From Coq Require Import ZArith List Bool Lia.
Import ListNotations.
From Verif Require Import Bits UtfModel UtfSpec UtfProofs CodecModel JsonModel MiscModel MiscSpec MiscProofs LexModel LexSpec LexProofs LexProofs2 LexProofs3.
Local Open Scope Z_scope.
Local Open Scope list_scope.

Lemma white_front : forall w c t w1 r, w ++ c :: t = w1 ++ 10 :: r -> Forall white w -> Forall white w1 -> ~ white c ->
  exists w2, r = w2 ++ c :: t /\ Forall white w2.
Proof.
  induction w as [|x w IH]; intros c t w1 r E Hw Hw1 Hc.
  - destruct w1 as [|y w1]; cbn in E; injection E as -> _; exfalso; apply Hc; [unfold white; lia | inversion Hw1; auto].
  - inversion Hw; subst. destruct w1 as [|y w1]; cbn in E; injection E as -> E.
    + exists w. auto.
    + inversion Hw1; subst. eapply IH; eauto.
Qed.
Lemma white_all : forall w w1 r, w = w1 ++ 10 :: r -> Forall white w -> Forall white r.
Proof. intros w w1 r -> H. apply Forall_app in H. destruct H as [_ H]. inversion H; auto. Qed.
Lemma place : forall s l w c t, before_text s l -> s = w ++ c :: t -> Forall white w -> ~ white c -> 0 < c ->
  exists pre, at_place l pre c t /\ (length (c :: t) <= left_ l)%nat.
Proof.
  intros s l w c t (w1 & pre & r' & -> & Hw1 & HR) E Hw Hc Hp.
  assert (exists w2, r' = w2 ++ c :: t /\ Forall white w2) as (w2 & -> & Hw2).
  { destruct HR as [[-> ->] | HR]; [exists w; auto|]. rewrite E in HR. eapply white_front; eauto. }
  exists (pre ++ w2). unfold at_place. rewrite left_back. split.
  - rewrite skip_ws_back by (auto; lia).
    rewrite skip_ws_here; auto; [|lia| rewrite app_length; cbn [length]; lia]. rewrite <- app_assoc. reflexivity.
  - rewrite app_length. lia.
Qed.
Lemma place_end : forall s l, before_text s l -> Forall white s -> exists pre, skip_ws (S (left_ l)) l = Some (0, here false pre []).
Proof.
  intros s l (w1 & pre & r' & -> & Hw1 & HR) Hs.
  assert (Forall white r') by (destruct HR as [[-> ->] | HR]; [auto | eapply white_all; eauto]).
  rewrite left_back, skip_ws_back by (auto; lia). rewrite skip_ws_end by (auto; lia). eauto.
Qed.
Lemma left_before : forall r l, before_text r l -> (left_ l <= length r)%nat.
Proof.
  intros r l (w & pre & r' & -> & _ & [[-> ->] | ->]); rewrite left_back; [cbn; lia|]. rewrite app_length. cbn. lia.
Qed.

Section Tok.
Context (D : Type) (of_ll : Z -> D) (strtod : list Z -> D * list Z) (re_ok : list Z -> bool).
Notation yylex1 := (yylex1 D of_ll strtod re_ok).
Notation yylex := (yylex D of_ll strtod re_ok).
Notation lex_all := (lex_all D of_ll strtod re_ok).
Notation tokens := (tokens D of_ll strtod re_ok).
Definition lex_from (f1 f2 : nat) (last : tok D) (l : lexer) : option (list (tok D) * tok D) :=
  match yylex f1 last l with
  | None => None
  | Some (t, l) => if is_end D t then Some ([], t)
                   else match lex_all f2 t l with Some (ts, e) => Some (t :: ts, e) | None => None end
  end.
Lemma lex_all_from : forall f last l, lex_all (S f) last l = lex_from (S (left_ l)) f last l.
Proof. reflexivity. Qed.

Lemma lex_at_end : forall s l last f1 f2, before_text s l -> Forall white s -> (0 < f1)%nat -> lex_from f1 f2 last l = Some ([], TEnd D).
Proof.
  intros s l last f1 f2 Hb Hs Hf. destruct (place_end _ _ Hb Hs) as (pre & E). destruct f1 as [|f1]; [lia|].
  unfold lex_from. cbn [LexModel.yylex]. unfold LexModel.yylex1. rewrite E. cbv zeta. change (0 =? 46) with false. cbv iota.
  change (isdigit 0) with false. change (is_quote 0) with false. change (word_start 0) with false. change (0 =? 47) with false. cbv iota.
  unfold sign_token. rewrite unget_0. unfold do_sign. cbn [sign_chars]. rewrite get_end. reflexivity.
Qed.
(** A comment *)
Lemma line_place : forall prev st pre b e r, at_place st pre 47 (47 :: b ++ e :: r) -> Forall (fun c => c <> 10 /\ c <> 13 /\ 0 < c) b -> e = 10 \/ e = 13 ->
  yylex1 prev st = Some (TComment D, here false (pre ++ 47 :: 47 :: b ++ [e]) r).
Proof.
  intros prev st pre b e r Hp Hb He. unfold LexModel.yylex1. rewrite Hp. cbv zeta. change (47 =? 46) with false. cbv iota.
  change (isdigit 47) with false. change (is_quote 47) with false. change (word_start 47) with false. change (47 =? 47) with true. cbv iota.
  rewrite get_here by lia. change (47 =? 47) with true. cbv iota.
  rewrite eat_line_here; auto; [|rewrite left_here, app_length; lia]. rewrite <- !app_assoc. reflexivity.
Qed.
Lemma last_line_place : forall prev st pre b, at_place st pre 47 (47 :: b) -> Forall (fun c => c <> 10 /\ c <> 13 /\ 0 < c) b ->
  yylex1 prev st = Some (TComment D, here false (pre ++ 47 :: 47 :: b) []).
Proof.
  intros prev st pre b Hp Hb. unfold LexModel.yylex1. rewrite Hp. cbv zeta. change (47 =? 46) with false. cbv iota.
  change (isdigit 47) with false. change (is_quote 47) with false. change (word_start 47) with false. change (47 =? 47) with true. cbv iota.
  rewrite get_here by lia. change (47 =? 47) with true. cbv iota.
  rewrite eat_line_end; auto; [|rewrite left_here; lia]. rewrite <- !app_assoc. reflexivity.
Qed.
Lemma block_place : forall prev st pre b r, at_place st pre 47 (42 :: b ++ 42 :: 47 :: r) -> Forall (fun c => 0 < c) b ->
  (forall x y, b ++ [42] <> x ++ 42 :: 47 :: y) ->
  yylex1 prev st = Some (TComment D, here false (pre ++ 47 :: 42 :: b ++ [42; 47]) r).
Proof.
  intros prev st pre b r Hp Hb Hn. unfold LexModel.yylex1. rewrite Hp. cbv zeta. change (47 =? 46) with false. cbv iota.
  change (isdigit 47) with false. change (is_quote 47) with false. change (word_start 47) with false. change (47 =? 47) with true. cbv iota.
  rewrite get_here by lia. change (42 =? 47) with false. change (42 =? 42) with true. cbv iota.
  rewrite eat_comment_here; auto; [|rewrite left_here, app_length; lia]. rewrite <- !app_assoc. reflexivity.
Qed.
Lemma comment_step : forall f1 f2 last l l', yylex1 last l = Some (TComment D, l') -> lex_from (S f1) f2 last l = lex_from f1 f2 last l'.
Proof. intros f1 f2 last l l' H. unfold lex_from. cbn [LexModel.yylex]. rewrite H. reflexivity. Qed.

Lemma not_white_47 : ~ white 47. Proof. unfold white. lia. Qed.
Lemma tokens_lex : (forall w, decimal w -> snd (strtod w) = []) -> forall prev s ts, tokens prev s ts -> pos s ->
  forall l f1 f2, before_text s l -> (left_ l < f1)%nat -> (left_ l <= f2)%nat -> lex_from f1 f2 prev l = Some (ts, TEnd D).
Proof.
  intros HS prev s ts H. induction H as [prev w Hw | prev w lit t r ts Hw Hlex Hts IH | prev w b e r ts Hw Hb He Hts IH | prev w b Hw Hb | prev w b r ts Hw Hb Hn Hts IH];
    intros Hp l f1 f2 Hl F1 F2.
  - eapply lex_at_end; eauto. lia.
  - assert (P1 : pos (lit ++ r)) by (apply Forall_app in Hp; apply Hp).
    destruct (yylex1_lexeme D of_ll strtod re_ok HS prev lit t r Hlex P1) as (c & tl & -> & Hc & K).
    assert (0 < c) by (inversion P1; auto).
    destruct (place _ l w c (tl ++ r) Hl eq_refl Hw Hc) as (pre & Hat & HL); [auto|].
    destruct (K _ _ Hat) as (l' & E & Hb' & Nc & Ne).
    destruct f1 as [|f1]; [lia|]. unfold lex_from. cbn [LexModel.yylex]. rewrite E, Nc, Ne.
    pose proof (left_before _ _ Hb') as L'. cbn [length] in HL. rewrite app_length in HL.
    destruct f2 as [|f2]; [lia|]. rewrite lex_all_from.
    assert (P2 : pos r) by (apply Forall_app in P1; apply (proj2 P1)).
    rewrite (IH P2 l' (S (left_ l')) f2 Hb') by lia. reflexivity.
  - assert (P1 : pos r) by (apply Forall_app in Hp; destruct Hp as [_ Hp]; inversion Hp as [|? ? _ Hp1]; inversion Hp1 as [|? ? _ Hp2]; subst;
      apply Forall_app in Hp2; destruct Hp2 as [_ Hp2]; inversion Hp2; auto).
    destruct (place _ l w 47 (47 :: b ++ e :: r) Hl eq_refl Hw not_white_47) as (pre & Hat & HL); [lia|].
    destruct f1 as [|f1]; [lia|]. rewrite (comment_step _ _ _ _ _ (line_place prev l pre b e r Hat Hb He)).
    cbn [length] in HL. rewrite app_length in HL. cbn [length] in HL.
    apply IH; auto; [apply before_here | rewrite left_here; lia | rewrite left_here; lia].
  - destruct (place _ l w 47 (47 :: b) Hl eq_refl Hw not_white_47) as (pre & Hat & HL); [lia|]. cbn [length] in HL.
    destruct f1 as [|f1]; [lia|]. rewrite (comment_step _ _ _ _ _ (last_line_place prev l pre b Hat Hb)).
    apply (lex_at_end []); [apply before_here | constructor | lia].
  - assert (P1 : pos r) by (apply Forall_app in Hp; destruct Hp as [_ Hp]; inversion Hp as [|? ? _ Hp1]; inversion Hp1 as [|? ? _ Hp2]; subst;
      apply Forall_app in Hp2; destruct Hp2 as [_ Hp2]; inversion Hp2 as [|? ? _ Hp3]; inversion Hp3; auto).
    destruct (place _ l w 47 (42 :: b ++ 42 :: 47 :: r) Hl eq_refl Hw not_white_47) as (pre & Hat & HL); [lia|].
    destruct f1 as [|f1]; [lia|]. rewrite (comment_step _ _ _ _ _ (block_place prev l pre b r Hat Hb Hn)).
    cbn [length] in HL. rewrite app_length in HL. cbn [length] in HL.
    apply IH; auto; [apply before_here | rewrite left_here; lia | rewrite left_here; lia].
Qed.
End Tok.

(** * Every text *)
Definition ok (k : nat) (l : lexer) : Prop := (length (unch l) <= k)%nat /\ ~ In 0 (unch l).
Lemma read1_left : forall l c l', read1 l = (c, l') ->
  (left_ l' <= left_ l)%nat /\ (c <> 0%Z -> left_ l' < left_ l)%nat /\ inStr l' = inStr l /\ unch l' = tl (unch l).
Proof.
  intros l c l' H. unfold read1 in H. destruct (unch l) as [|x u] eqn:E.
  - destruct (Z.eqb_spec (at_ (src l) (cur l)) 0) as [E0|E0]; injection H as <- <-; cbn [inStr unch]; rewrite ?E.
    + repeat split; auto. contradiction.
    + assert (cur l < length (src l))%nat by (destruct (Nat.ltb_spec (cur l) (length (src l))); auto; exfalso; apply E0; apply nth_overflow; lia).
      unfold left_. cbn [unch src cur length]. rewrite E. cbn [length tl]. repeat split; auto; lia.
  - injection H as <- <-. unfold left_. cbn [unch src cur inStr tl]. rewrite E. cbn [length]. repeat split; auto; lia.
Qed.
Lemma getchar_n_left : forall n l c l', getchar_n n l = (c, l') ->
  (left_ l' <= left_ l)%nat /\ (c <> 0%Z -> left_ l' < left_ l)%nat /\ inStr l' = inStr l /\ (length (unch l') <= pred (length (unch l)))%nat /\ incl (unch l') (unch l).
Proof.
  induction n as [|n IH]; intros l c l' H; cbn [getchar_n] in H; destruct (read1 l) as [c1 l1] eqn:R; destruct (read1_left _ _ _ R) as (A1 & A2 & A3 & A4).
  - destruct (_ && _) in H; injection H as <- <-; rewrite A4; repeat split; auto; try (destruct (unch l); cbn; [lia|auto]); try (intros x Hx; destruct (unch l); cbn in *; auto).
  - destruct (inStr l && (c1 =? 92) && (beside l1 =? 10)) eqn:EB.
    + destruct (IH _ _ _ H) as (B1 & B2 & B3 & B4 & B5). rewrite A4 in *.
      assert (c1 <> 0) by (apply andb_true_iff in EB; destruct EB as [EB _]; apply andb_true_iff in EB; destruct EB as [_ EB]; b2p; lia).
      specialize (A2 H0). repeat split; try lia; [congruence | destruct (unch l); cbn in *; lia|].
      intros x Hx. specialize (B5 x Hx). destruct (unch l); cbn in *; auto.
    + injection H as <- <-. rewrite A4; repeat split; auto; try (destruct (unch l); cbn; [lia|auto]); try (intros x Hx; destruct (unch l); cbn in *; auto).
Qed.
Lemma get_left : forall l c l' k, getchar l = (c, l') -> ok k l ->
  (left_ l' <= left_ l)%nat /\ (c <> 0%Z -> left_ l' < left_ l)%nat /\ inStr l' = inStr l /\ ok (pred k) l'.
Proof.
  intros l c l' k H [K1 K2]. destruct (getchar_n_left _ _ _ _ H) as (A1 & A2 & A3 & A4 & A5).
  split; [exact A1|]. split; [exact A2|]. split; [exact A3|]. split; [lia|]. intros I. apply K2, A5, I.
Qed.
Lemma ok_le : forall a b l, (a <= b)%nat -> ok a l -> ok b l.
Proof. intros a b l H [K1 K2]. split; auto. lia. Qed.
Lemma unget_total : forall c l k, ok k l -> (k < 100)%nat ->
  exists l', ungetc c l = Some l' /\ (left_ l' <= S (left_ l))%nat /\ (c = 0 -> l' = l) /\ inStr l' = inStr l /\ ok (S k) l' /\
    (inStr l = false -> c <> 0 -> getchar l' = (c, l)).
Proof.
  intros c l k [K1 K2] Hk. unfold ungetc. destruct (Z.eqb_spec c 0) as [->|N].
  - exists l. repeat split; auto; try lia; try contradiction.
  - destruct ((length (unch l) =? 0)%nat && (0 <? Z.of_nat (cur l)) && (c =? at_ (src l) (cur l - 1))) eqn:E.
    + apply andb_true_iff in E. destruct E as [E E3]. apply andb_true_iff in E. destruct E as [E1 E2].
      apply Nat.eqb_eq in E1. apply Z.ltb_lt in E2. apply Z.eqb_eq in E3.
      destruct l as [sr cu un st]. cbn [src cur unch inStr] in *. destruct un; [|discriminate]. eexists. split; [reflexivity|].
      unfold left_. cbn [unch src cur inStr length] in *. split; [lia|]. split; [contradiction|]. split; [reflexivity|].
      split; [split; cbn; [lia|auto]|]. intros -> _. unfold getchar. cbn [unch length getchar_n read1 src cur inStr].
      rewrite <- E3. destruct (Z.eqb_spec c 0); [contradiction|]. cbn [andb]. repeat f_equal. lia.
    + destruct (Z.ltb_spec (Z.of_nat (length (unch l)) + 2) 400); [|lia]. destruct (Z.ltb_spec (Z.of_nat (length (unch l))) 100); [|lia].
      eexists. split; [reflexivity|]. unfold left_. cbn [unch src cur inStr length]. split; [lia|]. split; [contradiction|]. split; [reflexivity|].
      split; [split; cbn; [lia | intros [I|I]; [congruence|auto]]|]. intros E0 _. unfold getchar. cbn [unch length getchar_n read1 src cur inStr].
      rewrite E0. cbn [andb]. destruct l; cbn in *. subst. reflexivity.
Qed.
(** Looking at a character *)
Lemma peek_total : forall l k c l1, getchar l = (c, l1) -> ok (S k) l -> (k < 100)%nat ->
  exists l2, ungetc c l1 = Some l2 /\ (left_ l2 <= left_ l)%nat /\ inStr l2 = inStr l /\ ok (S k) l2.
Proof.
  intros l k c l1 H K Hk. destruct (get_left _ _ _ _ H K) as (A1 & A2 & A3 & A4). cbn [pred] in A4.
  destruct (unget_total c l1 k A4 Hk) as (l2 & E & B1 & B2 & B3 & B4 & _). exists l2.
  split; [exact E|]. split; [destruct (Z.eq_dec c 0) as [->|N]; [rewrite B2 by auto; lia | specialize (A2 N); lia]|].
  split; [congruence | exact B4].
Qed.
Ltac use_get H K :=
  match type of H with getchar ?l = (?c, ?l1) => let A := fresh "A" in pose proof (get_left _ _ _ _ H K) as A; cbn [pred] in A end.

Lemma string_total : forall fuel q l buf k, ok k l -> (left_ l < fuel)%nat ->
  exists r l', string_loop fuel q l buf = Some (r, l') /\ (left_ l' <= left_ l)%nat /\ ok k l'.
Proof.
  induction fuel as [|fuel IH]; intros q l buf k K HF; [lia|]. cbn [string_loop].
  destruct (getchar l) as [c l1] eqn:G1. destruct (get_left _ _ _ _ G1 K) as (A1 & A2 & A3 & A4).
  assert (K1 : ok k l1) by (eapply ok_le; [|exact A4]; lia).
  destruct ((c =? 255) || (c =? 0)) eqn:E1; [exists None, l1; auto|]. apply orb_false_iff in E1. destruct E1 as [_ E1]. apply Z.eqb_neq in E1. specialize (A2 E1).
  destruct (c =? 92).
  - destruct (getchar l1) as [n l2] eqn:G2. destruct (get_left _ _ _ _ G2 K1) as (B1 & B2 & B3 & B4).
    assert (K2 : ok k l2) by (eapply ok_le; [|exact B4]; lia).
    destruct ((n =? 255) || (n =? 0)); [exists None, l2; repeat split; try lia; apply K2|].
    destruct (n =? 117).
    + destruct (getchar l2) as [a1 l3] eqn:G3. destruct (get_left _ _ _ _ G3 K2) as (C1 & _ & _ & C4).
      assert (K3 : ok k l3) by (eapply ok_le; [|exact C4]; lia).
      destruct (getchar l3) as [a2 l4] eqn:G4. destruct (get_left _ _ _ _ G4 K3) as (D1 & _ & _ & D4).
      assert (K4 : ok k l4) by (eapply ok_le; [|exact D4]; lia).
      destruct (getchar l4) as [a3 l5] eqn:G5. destruct (get_left _ _ _ _ G5 K4) as (E1' & _ & _ & E4).
      assert (K5 : ok k l5) by (eapply ok_le; [|exact E4]; lia).
      destruct (getchar l5) as [a4 l6] eqn:G6. destruct (get_left _ _ _ _ G6 K5) as (F1 & _ & _ & F4).
      assert (K6 : ok k l6) by (eapply ok_le; [|exact F4]; lia).
      destruct (utf_decode4 [a1; a2; a3; a4]) as [b|]; [|exists None, l6; repeat split; try lia; apply K6].
      destruct (IH q l6 (buf ++ b) k K6 ltac:(lia)) as (r & l' & E & L & K'). exists r, l'. split; [exact E|]. split; [lia|exact K'].
    + destruct (IH q l2 (buf ++ [escape1 n]) k K2 ltac:(lia)) as (r & l' & E & L & K'). exists r, l'. split; [exact E|]. split; [lia|exact K'].
  - destruct (c =? q); [exists (Some buf), l1; repeat split; try lia; apply K1|].
    destruct (IH q l1 (buf ++ [c]) k K1 ltac:(lia)) as (r & l' & E & L & K'). exists r, l'. split; [exact E|]. split; [lia|exact K'].
Qed.
Lemma alnum_not0 : forall c, LexModel.isalnum c = true -> c <> 0.
Proof. intros c H ->. discriminate. Qed.
Lemma flags_total : forall fuel room l buf k, ok (S k) l -> (k < 100)%nat -> (left_ l < fuel)%nat ->
  exists r l', flags_loop fuel room l buf = Some (r, l') /\ (left_ l' <= left_ l)%nat /\ ok (S k) l' /\ inStr l' = inStr l.
Proof.
  induction fuel as [|fuel IH]; intros room l buf k K Hk HF; [lia|]. cbn [flags_loop].
  destruct (room <=? 0); [exists None, l; auto|]. destruct (getchar l) as [c l1] eqn:G1. destruct (get_left _ _ _ _ G1 K) as (A1 & A2 & A3 & A4).
  destruct (LexModel.isalnum c) eqn:E.
  - specialize (A2 (alnum_not0 _ E)). destruct (IH (room - 1) l1 (buf ++ [c]) k) as (r & l' & E' & L & K' & I'); [eapply ok_le; [|exact A4]; lia | exact Hk | lia |].
    exists r, l'. split; [exact E'|]. split; [lia|]. split; [exact K' | congruence].
  - destruct (peek_total _ _ _ _ G1 K Hk) as (l2 & EU & L & I & K2). rewrite EU. exists (Some buf), l2. auto.
Qed.
Lemma regex_total : forall fuel bsiz l buf k, ok (S k) l -> (k < 100)%nat -> (left_ l < fuel)%nat ->
  exists r l', regex_loop fuel bsiz l buf = Some (r, l') /\ (left_ l' <= left_ l)%nat /\ ok (S k) l' /\ inStr l' = inStr l.
Proof.
  induction fuel as [|fuel IH]; intros bsiz l buf k K Hk HF; [lia|]. cbn [regex_loop]. cbv zeta.
  destruct (getchar l) as [c l1] eqn:G1. destruct (get_left _ _ _ _ G1 K) as (A1 & A2 & A3 & A4).
  assert (K1 : ok (S k) l1) by (eapply ok_le; [|exact A4]; lia).
  destruct ((c =? 255) || (c =? 0)) eqn:E1; [exists None, l1; auto|]. apply orb_false_iff in E1. destruct E1 as [_ E1]. apply Z.eqb_neq in E1. specialize (A2 E1).
  destruct (c =? 92).
  - destruct (getchar l1) as [n l2] eqn:G2. destruct (get_left _ _ _ _ G2 K1) as (B1 & B2 & B3 & B4).
    assert (K2 : ok (S k) l2) by (eapply ok_le; [|exact B4]; lia).
    destruct (n =? 255); [exists None, l2; repeat split; try lia; try apply K2; congruence|].
    match goal with |- context [regex_loop fuel ?b ?l ?u] => destruct (IH b l u k K2 Hk ltac:(lia)) as (r & l' & E & L & K' & I') end.
    exists r, l'. split; [exact E|]. split; [lia|]. split; [exact K'|congruence].
  - destruct (c =? 47).
    + match goal with |- context [flags_loop ?f ?b ?l ?u] => destruct (flags_total f b l u k K1 Hk ltac:(lia)) as (r & l' & E & L & K' & I') end.
      exists r, l'. split; [exact E|]. split; [lia|]. split; [exact K'|congruence].
    + match goal with |- context [regex_loop fuel ?b ?l ?u] => destruct (IH b l u k K1 Hk ltac:(lia)) as (r & l' & E & L & K' & I') end.
      exists r, l'. split; [exact E|]. split; [lia|]. split; [exact K'|congruence].
Qed.
Lemma sign_chars_total : forall n l k buf l', ok k l -> sign_chars n l = (buf, l') ->
  (left_ l' + length buf <= left_ l)%nat /\ (length buf <= n)%nat /\ ok (k - length buf) l' /\ inStr l' = inStr l.
Proof.
  induction n as [|n IH]; intros l k buf l' K H; cbn [sign_chars] in H.
  - injection H as <- <-. cbn [length]. rewrite Nat.sub_0_r. repeat split; try lia; apply K.
  - destruct (getchar l) as [c l1] eqn:G. destruct (get_left _ _ _ _ G K) as (A1 & A2 & A3 & A4).
    destruct ((c =? 0) || (c =? 10)) eqn:E.
    + injection H as <- <-. cbn [length]. rewrite Nat.sub_0_r. split; [lia|]. split; [lia|]. split; [eapply ok_le; [|exact A4]; lia | exact A3].
    + apply orb_false_iff in E. destruct E as [E _]. apply Z.eqb_neq in E. specialize (A2 E).
      destruct (sign_chars n l1) as [b l2] eqn:S1. injection H as <- <-. destruct (IH _ _ _ _ A4 S1) as (B1 & B2 & B3 & B4).
      cbn [length]. split; [lia|]. split; [lia|]. split; [eapply ok_le; [|exact B3]; lia | congruence].
Qed.
Lemma unget_all_total : forall cs l k, ok k l -> (k + length cs < 100)%nat ->
  exists l', unget_all cs l = Some l' /\ (left_ l' <= left_ l + length cs)%nat /\ ok (k + length cs) l' /\ inStr l' = inStr l.
Proof.
  induction cs as [|c cs IH]; intros l k K HL; cbn [unget_all length] in *.
  - exists l. split; [reflexivity|]. split; [lia|]. split; [eapply ok_le; [|exact K]; lia | reflexivity].
  - destruct (IH l k K ltac:(lia)) as (l1 & -> & A1 & A2 & A3). destruct (unget_total c l1 _ A2 ltac:(lia)) as (l2 & -> & B1 & _ & B3 & B4 & _).
    exists l2. split; [reflexivity|]. split; [lia|]. split; [eapply ok_le; [|exact B4]; lia | congruence].
Qed.
Lemma comment_total : forall fuel l k, ok (S k) l -> (k < 100)%nat -> (left_ l < fuel)%nat ->
  exists b l', eat_comment fuel l = Some (b, l') /\ (left_ l' <= left_ l)%nat /\ ok (S k) l' /\ inStr l' = inStr l.
Proof.
  induction fuel as [|fuel IH]; intros l k K Hk HF; [lia|]. cbn [eat_comment].
  destruct (getchar l) as [c l1] eqn:G1. destruct (get_left _ _ _ _ G1 K) as (A1 & A2 & A3 & A4).
  assert (K1 : ok (S k) l1) by (eapply ok_le; [|exact A4]; lia).
  destruct (Z.eqb_spec c 0) as [->|N]; [exists false, l1; auto|]. specialize (A2 N).
  destruct (c =? 42).
  - destruct (getchar l1) as [c2 l2] eqn:G2. destruct (get_left _ _ _ _ G2 K1) as (B1 & B2 & B3 & B4).
    destruct (c2 =? 47); [exists true, l2; split; [reflexivity|]; split; [lia|]; split; [eapply ok_le; [|exact B4]; lia | congruence]|].
    destruct (peek_total _ _ _ _ G2 K1 Hk) as (l3 & -> & C1 & C2 & C3).
    destruct (IH l3 k C3 Hk ltac:(lia)) as (b & l' & E & L & K' & I'). exists b, l'. split; [exact E|]. split; [lia|]. split; [exact K'|congruence].
  - destruct (IH l1 k K1 Hk ltac:(lia)) as (b & l' & E & L & K' & I'). exists b, l'. split; [exact E|]. split; [lia|]. split; [exact K'|congruence].
Qed.
Lemma line_total : forall fuel l k, ok k l -> (left_ l < fuel)%nat ->
  exists l', eat_line fuel l = Some l' /\ (left_ l' <= left_ l)%nat /\ ok k l' /\ inStr l' = inStr l.
Proof.
  induction fuel as [|fuel IH]; intros l k K HF; [lia|]. cbn [eat_line].
  destruct (getchar l) as [c l1] eqn:G1. destruct (get_left _ _ _ _ G1 K) as (A1 & A2 & A3 & A4).
  assert (K1 : ok k l1) by (eapply ok_le; [|exact A4]; lia).
  destruct ((c =? 13) || (c =? 10) || (c =? 0)) eqn:E; [exists l1; auto|]. apply orb_false_iff in E. destruct E as [_ E]. apply Z.eqb_neq in E. specialize (A2 E).
  destruct (IH l1 k K1 ltac:(lia)) as (l' & E' & L & K' & I'). exists l'. split; [exact E'|]. split; [lia|]. split; [exact K'|congruence].
Qed.
Lemma skip_total : forall fuel l k, ok k l -> (left_ l < fuel)%nat ->
  exists c l', skip_ws fuel l = Some (c, l') /\ (left_ l' <= left_ l)%nat /\ (c <> 0%Z -> left_ l' < left_ l)%nat /\ ok (pred k) l' /\ inStr l' = inStr l /\
    (c = 0 -> inStr l = false -> unch l' = [] /\ at_ (src l') (cur l') = 0).
Proof.
  induction fuel as [|fuel IH]; intros l k K HF; [lia|]. cbn [skip_ws].
  destruct (getchar l) as [c l1] eqn:G1. destruct (get_left _ _ _ _ G1 K) as (A1 & A2 & A3 & A4).
  destruct (is_ws c) eqn:E.
  - assert (c <> 0) by (intros ->; discriminate). specialize (A2 H).
    destruct (IH l1 _ A4 ltac:(lia)) as (c' & l' & E' & L & Lc & K' & I' & Z'). exists c', l'. split; [exact E'|]. split; [lia|].
    split; [intros N; specialize (Lc N); lia|]. split; [eapply ok_le; [|exact K']; lia|]. split; [congruence|]. intros E0 E1. apply Z'; congruence.
  - exists c, l1. split; [reflexivity|]. split; [auto|]. split; [auto|]. split; [exact A4|]. split; [exact A3|].
    intros -> I. unfold getchar in G1. cbn [getchar_n] in G1. rewrite I in G1. cbn [andb] in G1. destruct (read1 l) as [c1 l2] eqn:R. injection G1 as -> ->.
    unfold read1 in R. destruct K as [_ K]. destruct (unch l) as [|x u] eqn:EU.
    + destruct (Z.eqb_spec (at_ (src l) (cur l)) 0) as [E0|E0]; injection R as R1 <-; [auto | congruence].
    + injection R as -> _. exfalso. apply K. left. reflexivity.
Qed.
Lemma word_char_not0 : forall c, word_char c = true -> c <> 0.
Proof. intros c H ->. discriminate. Qed.
Lemma word_total : forall fuel l c word k L, ok (S k) l -> (k < 100)%nat -> (left_ l < fuel)%nat ->
  (left_ l + length word <= L)%nat -> (word <> [] -> ok k l) -> (word = [] -> word_char (fst (getchar l)) = true) ->
  exists w l', word_loop fuel l c word = Some (w, l') /\ (left_ l' < L)%nat /\ ok (S k) l' /\ inStr l' = inStr l.
Proof.
  induction fuel as [|fuel IH]; intros l c word k L K Hk HF HL Hw H0; [lia|]. cbn [word_loop].
  destruct (Nat.leb_spec 1020 (length word)).
  - assert (Kk : ok k l) by (apply Hw; intros ->; cbn in *; lia).
    destruct (unget_total c l k Kk Hk) as (l2 & -> & B1 & _ & B3 & B4 & _). exists word, l2. split; [reflexivity|]. split; [lia|]. auto.
  - destruct (getchar l) as [c1 l1] eqn:G1. destruct (get_left _ _ _ _ G1 K) as (A1 & A2 & A3 & A4). cbn [pred] in A4.
    destruct (word_char c1) eqn:E.
    + specialize (A2 (word_char_not0 _ E)).
      destruct (IH l1 c1 (word ++ [c1]) k L) as (w & l' & E' & L' & K' & I'); auto; try lia.
      * eapply ok_le; [|exact A4]; lia.
      * rewrite app_length. cbn [length]. lia.
      * destruct word; discriminate.
      * exists w, l'. split; [exact E'|]. split; [exact L'|]. split; [exact K'|congruence].
    + destruct (peek_total _ _ _ _ G1 K Hk) as (l2 & -> & B1 & B2 & B3). exists word, l2. split; [reflexivity|].
      split; [destruct word as [|x word]; [specialize (H0 eq_refl); cbn [fst] in H0; congruence | cbn [length] in HL; lia]|]. auto.
Qed.
Lemma num_total : forall fuel l word hex dig cpre k, ok (S k) l -> (k < 100)%nat -> (left_ l < fuel)%nat ->
  exists r l', num_loop fuel l word hex dig cpre = Some (r, l') /\ (left_ l' <= left_ l)%nat /\ ok (S k) l' /\ inStr l' = inStr l.
Proof.
  induction fuel as [|fuel IH]; intros l word hex dig cpre k K Hk HF; [lia|]. cbn [num_loop].
  destruct (Nat.leb_spec 1020 (length word)); [exists (word, hex, dig), l; auto|]. cbv zeta.
  destruct (getchar l) as [c1 l1] eqn:G1. destruct (get_left _ _ _ _ G1 K) as (A1 & A2 & A3 & A4). cbn [pred] in A4.
  match goal with |- context [if ?b then num_loop _ _ _ _ _ _ else _] => change b with (accept word cpre c1) end.
  destruct (accept word cpre c1) eqn:E.
  - apply accept_pos in E. specialize (A2 ltac:(lia)).
    match goal with |- context [num_loop fuel ?a ?b ?h ?d ?p] => destruct (IH a b h d p k) as (r & l' & E' & L' & K' & I') end; auto; try lia.
    + eapply ok_le; [|exact A4]; lia.
    + exists r, l'. split; [exact E'|]. split; [lia|]. split; [exact K'|congruence].
  - destruct (peek_total _ _ _ _ G1 K Hk) as (l2 & -> & B1 & B2 & B3). eexists (_, _, _), l2. split; [reflexivity|]. auto.
Qed.

Section Total.
Context (D : Type) (of_ll : Z -> D) (strtod : list Z -> D * list Z) (re_ok : list Z -> bool).
Notation yylex1 := (yylex1 D of_ll strtod re_ok).
Notation yylex := (yylex D of_ll strtod re_ok).
Notation lex_all := (lex_all D of_ll strtod re_ok).
Definition good (l : lexer) : Prop := ok 3 l /\ inStr l = false.

Lemma do_sign_total : forall l, ok 3 l -> inStr l = false -> exists t l', do_sign D l = Some (t, l') /\ good l' /\ ((left_ l' < left_ l)%nat \/ t = TEnd D).
Proof.
  intros l K I. unfold do_sign. destruct (sign_chars 4 l) as [buf l1] eqn:S1. destruct (sign_chars_total _ _ _ _ _ K S1) as (A1 & A2 & A3 & A4).
  destruct buf as [|c r]; [exists (TEnd D), l1; split; [reflexivity|]; split; [split; [eapply ok_le; [|exact A3]; lia | congruence] | right; reflexivity]|].
  cbn [length] in *.
  assert (U : forall cs, (length cs <= length r)%nat -> exists l2, unget_all cs l1 = Some l2 /\ good l2 /\ (left_ l2 < left_ l)%nat).
  { intros cs HL. destruct (unget_all_total cs l1 _ A3 ltac:(lia)) as (l2 & E & B1 & B2 & B3). exists l2. split; [exact E|].
    split; [split; [eapply ok_le; [|exact B2]; lia | congruence] | lia]. }
  destruct (find (fun s => prefix s (c :: r)) signs) as [s|] eqn:F.
  - destruct (U (skipn (length s) (c :: r))) as (l2 & -> & G & L).
    + rewrite skipn_length. cbn [length]. apply find_some in F. destruct F as [F _]. apply signs_operators, operators_chars in F. lia.
    + exists (TSign D s), l2. auto.
  - destruct (U r ltac:(lia)) as (l2 & -> & G & L). exists (TSign D [c]), l2. auto.
Qed.
Lemma sign_token_total : forall c l, ok 2 l -> inStr l = false -> c <> 0 -> exists t l', sign_token D c l = Some (t, l') /\ good l' /\ ((left_ l' <= left_ l)%nat \/ t = TEnd D).
Proof.
  intros c l K I N. unfold sign_token. destruct (unget_total c l 2 K ltac:(lia)) as (l1 & -> & A1 & _ & A3 & A4 & A5).
  destruct (do_sign_total l1 A4 ltac:(congruence)) as (t & l' & E & G & [L|L]); exists t, l'; (split; [exact E|]); (split; [exact G|]); [left; lia | right; exact L].
Qed.
Lemma number_total : forall w c l, ok 3 l -> inStr l = false -> exists t l', number D of_ll strtod w c l = Some (t, l') /\ good l' /\ (left_ l' <= left_ l)%nat.
Proof.
  intros w c l K I. unfold number. destruct (num_total (S (left_ l)) l (w ++ [c]) false 1 0 2 K ltac:(lia) ltac:(lia)) as ([[word hex] dig] & l' & -> & L & K' & I').
  destruct (num_value D of_ll strtod word hex dig) as [d x]. eexists _, l'. split; [reflexivity|]. split; [split; [exact K'|congruence]|exact L].
Qed.
Lemma yylex1_total : forall last l, good l -> exists t l', yylex1 last l = Some (t, l') /\ good l' /\ ((left_ l' < left_ l)%nat \/ t = TEnd D).
Proof.
  intros last l [K I]. unfold LexModel.yylex1.
  destruct (skip_total (S (left_ l)) l 3 K ltac:(lia)) as (c & l1 & -> & L1 & Lc & K1 & I1 & Z1). cbv zeta. cbn [pred] in K1.
  assert (I1' : inStr l1 = false) by congruence.
  destruct (Z.eq_dec c 0) as [->|Nc].
  { destruct (Z1 eq_refl I) as [U A]. change (0 =? 46) with false. cbv iota.
    change (isdigit 0) with false. change (is_quote 0) with false. change (word_start 0) with false. change (0 =? 47) with false. cbv iota.
    unfold sign_token. rewrite unget_0. exists (TEnd D), l1.
    assert (G : getchar l1 = (0, l1)).
    { unfold getchar. cbn [getchar_n]. rewrite I1'. cbn [andb]. unfold read1. rewrite U, A. reflexivity. }
    unfold do_sign. cbn [sign_chars]. rewrite G. cbn [Z.eqb orb]. split; [reflexivity|]. split; [split; [eapply ok_le; [|exact K1]; lia|auto] | right; reflexivity]. }
  specialize (Lc Nc).
  (* after the point *)
  assert (DOT : exists w c' l2, (if c =? 46 then let '(c2, l2) := getchar l1 in
      if isdigit c2 then Some ([46], c2, l2) else match ungetc c2 l2 with Some l => Some ([], c, l) | None => None end
      else Some ([], c, l1)) = Some (w, c', l2) /\ ok 2 l2 /\ inStr l2 = false /\ (left_ l2 <= left_ l1)%nat /\ c' <> 0).
  { destruct (c =? 46); [|exists [], c, l1; repeat split; auto; apply K1]. destruct (getchar l1) as [c2 l2] eqn:G.
    destruct (get_left _ _ _ _ G K1) as (A1 & A2 & A3 & A4). destruct (isdigit c2) eqn:E.
    - exists [46], c2, l2. split; [reflexivity|]. split; [eapply ok_le; [|exact A4]; lia|]. split; [congruence|]. split; [lia|].
      intros ->. discriminate.
    - destruct (peek_total _ 1 _ _ G K1 ltac:(lia)) as (l3 & -> & B1 & B2 & B3). exists [], c, l3. split; [reflexivity|]. repeat split; try apply B3; try congruence; try lia. }
  destruct DOT as (w & c' & l2 & -> & K2 & I2 & L2 & Nc').
  assert (K3 : ok 3 l2) by (eapply ok_le; [|exact K2]; lia).
  destruct (isdigit c') eqn:ED.
  { destruct (number_total w c' l2 K3 I2) as (t & l' & E & G & L). exists t, l'. split; [exact E|]. split; [exact G|]. left. lia. }
  destruct (unget_total c' l2 2 K2 ltac:(lia)) as (l3 & EU & U1 & _ & U3 & U4 & U5).
  specialize (U5 I2 Nc').
  destruct (is_quote c') eqn:EQ.
  { rewrite EU. unfold do_string.
    destruct (getchar (set_inStr true l3)) as [q l4] eqn:G.
    assert (KS : ok 3 (set_inStr true l3)) by exact U4.
    destruct (get_left _ _ _ _ G KS) as (A1 & A2 & A3 & A4). cbn [pred] in A4.
    assert (LS : left_ (set_inStr true l3) = left_ l3) by reflexivity. rewrite LS in *.
    destruct (string_total (S (left_ l4)) q l4 [] 3 ltac:(eapply ok_le; [|exact A4]; lia) ltac:(lia)) as (r & l5 & -> & B1 & B2).
    assert (P : (left_ l4 <= left_ l2)%nat).
    { (* the quote is read again *)
      assert (q <> 0).
      { intros ->. unfold getchar in G, U5. cbn [set_inStr unch] in G. cbn [getchar_n] in G, U5.
        assert (R : read1 (set_inStr true l3) = (let '(x, y) := read1 l3 in (x, set_inStr true y))).
        { unfold read1, set_inStr. cbn [unch src cur inStr]. destruct (unch l3) eqn:EU3; [|reflexivity]. destruct (_ =? 0); [rewrite EU3|]; reflexivity. }
        rewrite R in G. destruct (read1 l3) as [x y] eqn:R1. rewrite U3, I2 in U5. cbn [andb] in U5. injection U5 as -> ->.
        assert (N92 : (c' =? 92) = false) by (unfold is_quote in EQ; rewrite !orb_true_iff, !Z.eqb_eq in EQ; apply Z.eqb_neq; lia).
        rewrite N92, andb_false_r in G. cbn [andb] in G. congruence. }
      specialize (A2 H). lia. }
    destruct r as [s|]; eexists _, _; (split; [reflexivity|]); (split; [split; [exact B2|reflexivity]|]); left; change (left_ (set_inStr false l5)) with (left_ l5); lia. }
  destruct (word_start c') eqn:EW.
  { rewrite EU.
    assert (WC : word_char c' = true) by (apply word_char_iff; left; apply word_start_iff; exact EW).
    destruct (word_total (S (left_ l3)) l3 0 [] 2 (left_ l3)) as (wd & l4 & -> & A1 & A2 & A3); auto; try lia.
    - cbn. lia.
    - intros; contradiction.
    - intros _. rewrite U5. exact WC.
    - exists (if iskey wd then TKey D wd else TIdent D wd), l4. split; [reflexivity|]. split; [split; [exact A2|congruence]|]. left. lia. }
  destruct (c' =? 47).
  - destruct (getchar l2) as [d l4] eqn:G. destruct (get_left _ _ _ _ G K2) as (A1 & A2 & A3 & A4). cbn [pred] in A4.
    assert (K4 : ok 3 l4) by (eapply ok_le; [|exact A4]; lia).
    destruct (d =? 47).
    { destruct (line_total (S (left_ l4)) l4 3 K4 ltac:(lia)) as (l5 & -> & B1 & B2 & B3). exists (TComment D), l5. split; [reflexivity|]. split; [split; [exact B2|congruence]|]. left. lia. }
    destruct (d =? 42).
    { destruct (comment_total (S (left_ l4)) l4 2 K4 ltac:(lia) ltac:(lia)) as (b & l5 & -> & B1 & B2 & B3). exists (TComment D), l5. split; [reflexivity|]. split; [split; [exact B2|congruence]|]. left. lia. }
    destruct (peek_total _ 1 _ _ G K2 ltac:(lia)) as (l5 & -> & B1 & B2 & B3).
    assert (I5 : inStr l5 = false) by congruence.
    destruct (before_regex D last).
    + destruct (unget_total c' l5 2 B3 ltac:(lia)) as (l6 & -> & C1 & _ & C3 & C4 & C5). specialize (C5 I5 Nc').
      unfold do_regex. rewrite C5.
      destruct (regex_total (S (left_ l5)) 8192 l5 [c'] 2 ltac:(eapply ok_le; [|exact B3]; lia) ltac:(lia) ltac:(lia)) as (r & l7 & -> & E1 & E2 & E3).
      destruct r as [s|]; eexists _, l7; (split; [reflexivity|]); (split; [split; [exact E2|congruence]|]); left; lia.
    + destruct (sign_token_total c' l5 B3 I5 Nc') as (t & l' & E & Gd & [L|L]); exists t, l'; (split; [exact E|]); (split; [exact Gd|]); [left; lia | right; exact L].
  - destruct (sign_token_total c' l2 K2 I2 Nc') as (t & l' & E & Gd & [L|L]); exists t, l'; (split; [exact E|]); (split; [exact Gd|]); [left; lia | right; exact L].
Qed.
Lemma yylex_total : forall fuel last l, good l -> (left_ l < fuel)%nat ->
  exists t l', yylex fuel last l = Some (t, l') /\ good l' /\ ((left_ l' < left_ l)%nat \/ t = TEnd D).
Proof.
  induction fuel as [|fuel IH]; intros last l G HF; [lia|]. cbn [LexModel.yylex].
  destruct (yylex1_total last l G) as (t & l' & -> & G' & HL). destruct (is_comment D t) eqn:E.
  - destruct HL as [HL | ->]; [|discriminate]. destruct (IH last l' G' ltac:(lia)) as (t' & l2 & E' & G2 & [L|L]); exists t', l2; (split; [exact E'|]); (split; [exact G2|]); [left; lia | right; exact L].
  - exists t, l'. auto.
Qed.
Lemma lex_all_total : forall fuel last l, good l -> (left_ l < fuel)%nat ->
  exists ts e, lex_all fuel last l = Some (ts, e) /\ is_end D e = true /\ Forall (fun t => is_end D t = false) ts /\ (length ts <= left_ l)%nat.
Proof.
  induction fuel as [|fuel IH]; intros last l G HF; [lia|]. cbn [LexModel.lex_all].
  destruct (yylex_total (S (left_ l)) last l G ltac:(lia)) as (t & l' & -> & G' & HL). destruct (is_end D t) eqn:E.
  - exists [], t. repeat split; auto. cbn. lia.
  - destruct HL as [HL | ->]; [|discriminate]. destruct (IH t l' G' ltac:(lia)) as (ts & e & -> & E1 & E2 & E3). exists (t :: ts), e. repeat split; auto. cbn. lia.
Qed.
End Total.
