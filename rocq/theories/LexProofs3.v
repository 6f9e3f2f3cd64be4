(** Lexer: one token at a place, and the tokens of a program. *)
From Coq Require Import ZArith List Bool Lia.
Import ListNotations.
From Verif Require Import Bits UtfModel UtfSpec UtfProofs CodecModel JsonModel MiscModel MiscSpec MiscProofs LexModel LexSpec LexProofs LexProofs2.
Local Open Scope Z_scope.
Local Open Scope list_scope.

Definition pos (s : list Z) : Prop := Forall (fun c => 0 < c) s.

(** ** Shapes of numbers *)
Lemma toupper_69 : forall c, toupper c = 69 -> c = 69 \/ c = 101.
Proof. intros c. unfold toupper. destruct (97 <=? c) eqn:E1, (c <=? 122) eqn:E2; cbn [andb]; zb. Qed.
Lemma goes_on : forall w0 w cpre c, w0 <> [] -> (toupper cpre = 69 -> w <> [] \/ exists v, w0 = v ++ [101] \/ w0 = v ++ [69]) ->
  accept (w0 ++ w) (last w cpre) c = true -> number_goes_on (w0 ++ w) c.
Proof.
  intros w0 w cpre c Hw Hp H. unfold accept in H. unfold number_goes_on, hexdigit, digit.
  rewrite !orb_true_iff, !andb_true_iff, orb_true_iff in H.
  destruct H as [[[[[H | H] | H] | H] | H] | H].
  - apply (proj1 (isxdigit_iff c)) in H. unfold hexdigit, digit in H. lia.
  - apply Z.eqb_eq in H. lia.
  - apply Z.eqb_eq in H. unfold toupper in H. destruct (97 <=? c) eqn:E1, (c <=? 122) eqn:E2; cbn [andb] in H; zb.
  - apply Z.eqb_eq in H. apply toupper_69 in H. lia.
  - destruct H as [[H1 H2] H3]. apply Z.eqb_eq in H1, H3. apply Nat.eqb_eq in H2. do 4 right. left.
    destruct (w0 ++ w) as [|a [|b t]] eqn:E; try discriminate H2. cbn in H3. subst a. split; [reflexivity|].
    unfold toupper in H1. destruct (97 <=? c) eqn:E1, (c <=? 122) eqn:E2; cbn [andb] in H1; zb.
  - destruct H as [H1 H2]. do 5 right. split; [destruct H1 as [H1|H1]; apply Z.eqb_eq in H1; lia|].
    apply Z.eqb_eq in H2.
    destruct (list_eq_dec Z.eq_dec w []) as [->|N].
    + cbn [last] in H2. destruct (Hp H2) as [K|(v & K)]; [contradiction|]. rewrite app_nil_r. exists v. tauto.
    + destruct (exists_last N) as (w' & x & ->). rewrite last_last in H2. apply toupper_69 in H2. exists (w0 ++ w'). rewrite app_assoc. destruct H2 as [-> | ->]; auto.
Qed.
Lemma not_accept_end : forall w cpre, accept w cpre 0 = false.
Proof. intros. reflexivity. Qed.
Lemma not_accept : forall w0 w cpre r, w0 <> [] -> (toupper cpre = 69 -> w <> [] \/ exists v, w0 = v ++ [101] \/ w0 = v ++ [69]) ->
  not_next (number_goes_on (w0 ++ w)) r -> accept (w0 ++ w) (last w cpre) (hd 0 r) = false.
Proof.
  intros w0 w cpre r H1 H2 H3. destruct r as [|c r]; [reflexivity|]. cbn [hd not_next] in *.
  destruct (accept (w0 ++ w) (last w cpre) c) eqn:E; [|reflexivity]. exfalso. apply H3. eapply goes_on; eauto.
Qed.
Lemma accepts_app : forall a b w0 cpre, accepts w0 cpre (a ++ b) = accepts w0 cpre a && accepts (w0 ++ a) (last a cpre) b.
Proof.
  induction a as [|x a IH]; intros b w0 cpre; [cbn; rewrite app_nil_r; reflexivity|].
  rewrite last_cons. cbn [accepts app]. rewrite IH, <- !app_assoc. cbn [app]. rewrite andb_assoc. reflexivity.
Qed.
Lemma digit_hex : forall c, digit c -> isxdigit c = true.
Proof. intros c H. apply isxdigit_iff. left. exact H. Qed.
Lemma accept_hex : forall w cpre c, isxdigit c = true -> accept w cpre c = true.
Proof. intros w cpre c H. unfold accept. rewrite H. reflexivity. Qed.
Lemma accepts_hexes : forall s w cpre, Forall (fun c => isxdigit c = true) s -> accepts w cpre s = true.
Proof. induction s as [|c s IH]; intros w cpre H; [reflexivity|]. inversion H; subst. cbn [accepts]. rewrite accept_hex by auto. apply IH; auto. Qed.
Lemma digits_hexes : forall s, Forall digit s -> Forall (fun c => isxdigit c = true) s.
Proof. intros s H. eapply Forall_impl; [|exact H]. intros; apply digit_hex; auto. Qed.
Lemma accepts_exponent : forall ex w cpre, exponent ex -> accepts w cpre ex = true.
Proof.
  intros ex w cpre H. inversion H as [|e ds He Hn Hd|e s ds He Hs Hn Hd]; subst; [reflexivity| |].
  - cbn [accepts]. rewrite accept_hex by (destruct He as [-> | ->]; reflexivity). apply accepts_hexes. apply digits_hexes. exact Hd.
  - cbn [accepts]. rewrite accept_hex by (destruct He as [-> | ->]; reflexivity).
    assert (A : accept (w ++ [e]) e s = true) by (unfold accept; destruct He as [-> | ->], Hs as [-> | ->]; reflexivity).
    rewrite A. apply accepts_hexes. apply digits_hexes. exact Hd.
Qed.
Lemma no_x_digits : forall s, Forall digit s -> has_x s = false.
Proof.
  induction s as [|c s IH]; intros H; [reflexivity|]. inversion H as [|? ? Hc Hs]; subst. cbn [has_x existsb]. fold (has_x s). rewrite IH by auto.
  unfold toupper, digit in *. destruct (97 <=? c) eqn:E1; [b2p; lia|]. cbn [andb]. destruct (c =? 88) eqn:E2; [b2p; lia|]. reflexivity.
Qed.
Lemma has_x_app : forall a b, has_x (a ++ b) = has_x a || has_x b.
Proof. intros. unfold has_x. apply existsb_app. Qed.
Lemma count_app : forall a b, count_hex (a ++ b) = count_hex a + count_hex b.
Proof. induction a as [|c a IH]; intros b; cbn [count_hex app]; [lia|]. rewrite IH. lia. Qed.
Lemma count_le : forall a, 0 <= count_hex a <= Z.of_nat (length a).
Proof. induction a as [|c a IH]; cbn [count_hex length]; [lia|]. destruct (isxdigit c); lia. Qed.
Lemma count_all : forall a, Forall (fun c => isxdigit c = true) a -> count_hex a = Z.of_nat (length a).
Proof. induction 1 as [|c a Hc H IH]; cbn [count_hex length]; [lia|]. rewrite Hc, IH. lia. Qed.
Lemma numeral_hexes : forall b s n, b <= 16 -> numeral b s n -> Forall (fun c => isxdigit c = true) s.
Proof.
  intros b s n Hb H. apply numeral_digits in H. eapply Forall_impl; [|exact H]. intros c (v & Hv & Hc). apply isxdigit_iff.
  unfold hexdigit, digit. lia.
Qed.
Lemma no_x_hexes : forall s, Forall (fun c => isxdigit c = true) s -> has_x s = false.
Proof.
  induction s as [|c s IH]; intros H; [reflexivity|]. inversion H as [|? ? Hc Hs]; subst. cbn [has_x existsb]. fold (has_x s). rewrite IH by auto.
  apply (proj1 (isxdigit_iff c)) in Hc. unfold hexdigit, toupper, digit in *.
  destruct (97 <=? c) eqn:E1, (c <=? 122) eqn:E2; cbn [andb]; rewrite ?orb_false_r; apply Z.eqb_neq; b2p; lia.
Qed.

Section Tok.
Context (D : Type) (of_ll : Z -> D) (strtod : list Z -> D * list Z) (re_ok : list Z -> bool).
Hypothesis strtod_all : forall w, decimal w -> snd (strtod w) = [].
Notation yylex1 := (yylex1 D of_ll strtod re_ok).
Notation lexeme := (lexeme D of_ll strtod re_ok).
Notation tokens := (tokens D of_ll strtod re_ok).

(** The number that begins with [w0] and goes on with [w] *)
Lemma number_here : forall w0 c w pre r, (w0 = [] \/ w0 = [46]) -> digit c -> accepts (w0 ++ [c]) 0 w = true ->
  (length (w0 ++ c :: w) <= 1020)%nat -> pos r -> not_next (number_goes_on (w0 ++ c :: w)) r ->
  number D of_ll strtod w0 c (here false pre (w ++ r)) =
    (let '(d, x) := num_value D of_ll strtod (w0 ++ c :: w) (has_x w) (1 + count_hex w) in
     Some (match x with [] => TNum D d | _ => TErr D end, here false (pre ++ w) r)).
Proof.
  intros w0 c w pre r Hw0 Hc Ha HL Hr Hn. unfold number.
  replace (w0 ++ c :: w) with ((w0 ++ [c]) ++ w) in * by (rewrite <- app_assoc; reflexivity).
  rewrite num_loop_here; auto.
  - apply not_accept; auto; [destruct w0; discriminate | cbv; discriminate].
  - rewrite left_here, app_length. lia.
Qed.

(** After the white space *)
Definition at_place (st : lexer) (pre : list Z) (c : Z) (t : list Z) : Prop :=
  skip_ws (S (left_ st)) st = Some (c, here false (pre ++ [c]) t).
Lemma sign_place : forall prev st pre c t, at_place st pre c t -> 0 < c -> pos t -> ~ white c -> ~ digit c -> ~ letter c -> ~ In c [34; 39; 96] ->
  (c = 46 -> not_next digit t) -> (c = 47 -> before_regex D prev = false /\ not_next (fun c => c = 47 \/ c = 42) t) ->
  yylex1 prev st = do_sign D (here false pre (c :: t)).
Proof.
  intros prev st pre c t Hp Hc Ht Hw Hd Hl Hq Hdot Hslash. unfold LexModel.yylex1. rewrite Hp. cbv zeta.
  assert (E : (if c =? 46 then let '(c2, l2) := getchar (here false (pre ++ [c]) t) in
      if isdigit c2 then Some ([46], c2, l2) else match ungetc c2 l2 with Some l => Some ([], c, l) | None => None end
      else Some ([], c, here false (pre ++ [c]) t)) = Some ([], c, here false (pre ++ [c]) t)).
  { destruct (Z.eqb_spec c 46) as [->|]; [|reflexivity]. destruct (getchar (here false (pre ++ [46]) t)) as [c2 l2] eqn:G.
    destruct (peek _ _ _ _ _ Ht G) as [-> U]. rewrite U.
    assert (X : isdigit (hd 0 t) = false) by (apply (false_iff _ _ (isdigit_iff _)); destruct t; [cbn; unfold digit; lia | apply (Hdot eq_refl)]).
    rewrite X. reflexivity. }
  rewrite E. clear E.
  rewrite (proj2 (false_iff _ _ (isdigit_iff c)) Hd).
  assert (Q : is_quote c = false).
  { unfold is_quote. cbn [In] in Hq. destruct (Z.eqb_spec c 34); [lia|]. destruct (Z.eqb_spec c 39); [lia|]. destruct (Z.eqb_spec c 96); [lia|]. reflexivity. }
  rewrite Q, (proj2 (false_iff _ _ (word_start_iff c)) Hl). unfold sign_token.
  assert (U : ungetc c (here false (pre ++ [c]) t) = Some (here false pre (c :: t))) by (apply unget_here; lia).
  destruct (Z.eqb_spec c 47) as [->|N]; [|rewrite U; reflexivity].
  destruct (Hslash eq_refl) as [B Hn]. destruct (getchar (here false (pre ++ [47]) t)) as [d l] eqn:G.
  destruct (peek _ _ _ _ _ Ht G) as [-> Ud].
  destruct (Z.eqb_spec (hd 0 t) 47); [destruct t; [discriminate|]; cbn in *; tauto|].
  destruct (Z.eqb_spec (hd 0 t) 42); [destruct t; [discriminate|]; cbn in *; tauto|].
  rewrite Ud, B, U. reflexivity.
Qed.
Lemma before_regex_iff : forall t, before_regex D t = true <-> regex_may_follow D t.
Proof.
  intros [| | | | d | s | w | w | s | s]; cbn [before_regex regex_may_follow]; split; intros H; auto; try discriminate; try contradiction.
  - apply existsb_exists in H. destruct H as (x & Hx & E). apply eqb_text_iff in E. congruence.
  - apply existsb_exists. exists s. split; auto. apply eqb_text_iff. reflexivity.
Qed.
Lemma number_place : forall prev st pre c t, at_place st pre c t -> digit c ->
  yylex1 prev st = number D of_ll strtod [] c (here false (pre ++ [c]) t).
Proof.
  intros prev st pre c t Hp Hd. unfold LexModel.yylex1. rewrite Hp. cbv zeta.
  destruct (Z.eqb_spec c 46); [unfold digit in Hd; lia|]. rewrite (proj2 (isdigit_iff c) Hd). reflexivity.
Qed.

(** Where the lexer is before the text [r]: with white space put back, perhaps, and a newline lost *)
Definition before_text (r : list Z) (l : lexer) : Prop :=
  exists w pre r', l = with_back w pre r' /\ Forall white w /\ ((w = [] /\ r' = r) \/ r = w ++ 10 :: r').
Lemma before_here : forall pre r, before_text r (here false pre r).
Proof. intros. exists [], pre, r. split; [reflexivity|]. split; [constructor | left; auto]. Qed.

Lemma dec_value : forall w hex dig, at_ w 0 <> 48 -> num_value D of_ll strtod w hex dig = strtod w.
Proof. intros w hex dig H. unfold num_value. destruct (Z.eqb_spec (at_ w 0) 48); [contradiction|]. reflexivity. Qed.
Lemma numeral_ne : forall b s n, numeral b s n -> s <> [].
Proof. intros b s n H. destruct (numeral_first _ _ _ H) as (c & r & v & -> & _). discriminate. Qed.
Lemma strtoll_of : forall base w n, strto base w = Some (false, n, []) -> 0 <= n <= 9223372036854775807 -> strtoll base w = n.
Proof.
  intros base w n E Hn. unfold strtoll. rewrite E. cbv iota. unfold LLONG_MIN, LLONG_MAX.
  destruct (Z.ltb_spec n (-9223372036854775808)); [lia|]. destruct (Z.ltb_spec 9223372036854775807 n); [lia|]. reflexivity.
Qed.

Lemma yylex1_lexeme : forall prev lit t r, lexeme prev lit t r -> pos (lit ++ r) ->
  exists c tl, lit = c :: tl /\ ~ white c /\ forall st pre, at_place st pre c (tl ++ r) ->
  exists l, yylex1 prev st = Some (t, l) /\ before_text r l /\ is_comment D t = false /\ is_end D t = false.
Proof.
  intros prev lit t r H Hp. inversion H; subst.
  - (* word *)
    exists c, w. split; [reflexivity|]. split; [unfold white, letter in *; lia|]. intros st pre Hat.
    exists (here false (pre ++ c :: w) r).
    split; [|split; [apply before_here|destruct (in_dec _ _ _); auto]].
    unfold LexModel.yylex1. rewrite Hat. cbv zeta.
    destruct (Z.eqb_spec c 46); [unfold letter in *; lia|].
    rewrite (proj2 (false_iff _ _ (isdigit_iff c))) by (unfold letter, digit in *; lia).
    assert (Q : is_quote c = false).
    { unfold is_quote. unfold letter in *. destruct (Z.eqb_spec c 34); [lia|]. destruct (Z.eqb_spec c 39); [lia|]. destruct (Z.eqb_spec c 96); [lia|]. reflexivity. }
    rewrite Q, (proj2 (word_start_iff c)) by auto.
    rewrite unget_here by (unfold letter in *; lia).
    change (c :: w ++ r) with ((c :: w) ++ r).
    rewrite word_loop_here; auto; [| apply Forall_app in Hp; apply Hp | rewrite left_here, app_length; lia].
    cbn [app]. f_equal. f_equal.
    assert (K : hd 0 (c :: w) <> 46) by (cbn; lia).
    destruct (in_dec (list_eq_dec Z.eq_dec) (c :: w) reserved) as [I|I].
    + rewrite (proj2 (iskey_iff (c :: w))) by (apply keywords_reserved; auto). reflexivity.
    + destruct (iskey (c :: w)) eqn:EK; [|reflexivity]. exfalso. apply I. apply keywords_reserved; auto. apply iskey_iff. exact EK.
  - (* string *)
    exists q, (lit0 ++ [q]). split; [reflexivity|]. split; [cbn in H0; unfold white; lia|]. intros st pre Hat.
    exists (here false (pre ++ q :: lit0 ++ [q]) r). split; [|split; [apply before_here|split; reflexivity]].
    unfold LexModel.yylex1. rewrite Hat. cbv zeta. cbn [In] in H0.
    destruct (Z.eqb_spec q 46); [lia|]. rewrite (proj2 (false_iff _ _ (isdigit_iff q))) by (unfold digit; lia).
    assert (Q : is_quote q = true).
    { unfold is_quote. destruct H0 as [<- | [<- | [<- | []]]]; reflexivity. }
    rewrite Q, unget_here by lia. unfold do_string.
    change (set_inStr true (here false pre (q :: (lit0 ++ [q]) ++ r))) with (here true pre (q :: (lit0 ++ [q]) ++ r)).
    rewrite get_here by lia. rewrite <- app_assoc. cbn [app].
    rewrite (string_loop_here q lit0 s); auto.
    + cbn [app]. change (set_inStr false (here true ?a ?b)) with (here false a b). rewrite <- app_assoc. reflexivity.
    + rewrite left_here, app_length. cbn [length]. lia.
  - (* 0 *)
    exists 48, []. split; [reflexivity|]. split; [unfold white; lia|]. intros st pre Hat.
    rewrite (number_place _ _ _ _ _ Hat) by (unfold digit; lia).
    rewrite (number_here [] 48 [] (pre ++ [48]) r); auto; [|unfold digit; lia | cbn; lia | inversion Hp; auto].
    eexists. split; [reflexivity|]. split; [apply before_here | split; reflexivity].
  - (* decimal *)
    apply Forall_app in Hp. destruct Hp as [_ Hr].
    assert (V := strtod_all _ H0).
    inversion H0 as [d ds ex Hd Hnz Hds Hex E | d ds fs ex Hd Hz Hds Hfs Hex E | f fs ex Hf Hfs Hex E]; subst.
    + exists d, (ds ++ ex). split; [reflexivity|]. split; [unfold white, digit in *; lia|]. intros st pre Hat.
      rewrite (number_place _ _ _ _ _ Hat) by auto.
      rewrite (number_here [] d (ds ++ ex) (pre ++ [d]) r); auto.
      * rewrite dec_value by (cbn; exact Hnz). cbn [app] in V |- *. destruct (strtod (d :: ds ++ ex)) as [dv x]. cbn in V. subst x. cbn [fst].
        eexists. split; [reflexivity|]. split; [apply before_here | split; reflexivity].
      * rewrite accepts_app, accepts_hexes, accepts_exponent by (auto using digits_hexes). reflexivity.
    + exists d, (ds ++ 46 :: fs ++ ex). split; [reflexivity|]. split; [unfold white, digit in *; lia|]. intros st pre Hat.
      rewrite (number_place _ _ _ _ _ Hat) by auto.
      rewrite (number_here [] d (ds ++ 46 :: fs ++ ex) (pre ++ [d]) r); auto.
      * assert (EV : num_value D of_ll strtod ([] ++ d :: ds ++ 46 :: fs ++ ex) (has_x (ds ++ 46 :: fs ++ ex)) (1 + count_hex (ds ++ 46 :: fs ++ ex))
          = strtod (d :: ds ++ 46 :: fs ++ ex)).
        { destruct (Z.eq_dec d 48) as [->|N]; [|apply dec_value; cbn; exact N]. rewrite (Hz eq_refl). cbn [app].
          assert (X : has_x (46 :: fs ++ ex) = false).
          { change (46 :: fs ++ ex) with ([46] ++ fs ++ ex). rewrite !has_x_app, (no_x_digits fs) by auto.
            assert (has_x ex = false) as ->; [|reflexivity].
            inversion Hex as [|e ds' He _ Hd'|e s ds' He Hs _ Hd']; subst; [reflexivity| |].
            - change (e :: ds') with ([e] ++ ds'). rewrite has_x_app, (no_x_digits ds') by auto. destruct He as [-> | ->]; reflexivity.
            - change (e :: s :: ds') with ([e; s] ++ ds'). rewrite has_x_app, (no_x_digits ds') by auto. destruct He as [-> | ->], Hs as [-> | ->]; reflexivity. }
          rewrite X. unfold num_value. change (at_ (48 :: 46 :: fs ++ ex) 0) with 48. change (at_ (48 :: 46 :: fs ++ ex) 1) with 46.
          change (isdigit 46) with false. cbn [andb]. change (48 =? 48) with true. cbn [andb].
          pose proof (count_le (fs ++ ex)). cbn [count_hex length]. change (isxdigit 46) with false. cbv iota.
          match goal with |- context [?a =? ?b] => destruct (Z.eqb_spec a b) end; [lia|reflexivity]. }
        rewrite EV. destruct (strtod (d :: ds ++ 46 :: fs ++ ex)) as [dv x]. cbn in V. subst x. cbn [fst].
        eexists. split; [reflexivity|]. split; [apply before_here | split; reflexivity].
      * rewrite accepts_app, accepts_hexes by (auto using digits_hexes). cbn [accepts andb].
        rewrite accepts_app, accepts_hexes, accepts_exponent by (auto using digits_hexes). reflexivity.
    + exists 46, (f :: fs ++ ex). split; [reflexivity|]. split; [unfold white, digit in *; lia|]. intros st pre Hat.
      unfold LexModel.yylex1. rewrite Hat. cbv zeta. change (46 =? 46) with true. cbv iota. cbn [app].
      rewrite get_here by (unfold digit in Hf; lia). rewrite (proj2 (isdigit_iff f)) by auto. cbv iota.
      rewrite (proj2 (isdigit_iff f)) by auto.
      rewrite (number_here [46] f (fs ++ ex) ((pre ++ [46]) ++ [f]) r); auto.
      * rewrite dec_value by (cbn; lia). cbn [app] in V |- *. destruct (strtod (46 :: f :: fs ++ ex)) as [dv x]. cbn in V. subst x. cbn [fst].
        eexists. split; [reflexivity|]. split; [apply before_here | split; reflexivity].
      * rewrite accepts_app, accepts_hexes, accepts_exponent by (auto using digits_hexes). reflexivity.
  - (* hexadecimal *)
    apply Forall_app in Hp. destruct Hp as [_ Hr].
    exists 48, (x :: w). split; [reflexivity|]. split; [unfold white; lia|]. intros st pre Hat.
    rewrite (number_place _ _ _ _ _ Hat) by (unfold digit; lia).
    pose proof (numeral_hexes 16 w n ltac:(lia) H1) as HX.
    rewrite (number_here [] 48 (x :: w) (pre ++ [48]) r); auto; [|unfold digit; lia| | cbn in *; lia].
    + assert (X : has_x (x :: w) = true) by (destruct H0 as [-> | ->]; reflexivity). rewrite X.
      assert (Cn : count_hex (x :: w) = Z.of_nat (length w)).
      { cbn [count_hex]. rewrite (count_all w HX). destruct H0 as [-> | ->]; cbn; lia. }
      rewrite Cn. unfold num_value. cbn [app]. change (at_ (48 :: x :: w) 0) with 48. change (at_ (48 :: x :: w) 1) with x.
      change (48 =? 48) with true. cbn [andb negb]. rewrite andb_false_r. cbn [length].
      match goal with |- context [?a =? ?b] => destruct (Z.eqb_spec a b) end; [|lia].
      assert (S16 : strto 16 (48 :: x :: w) = Some (false, n, [])).
      { destruct w as [|d w]; [destruct (numeral_ne _ _ _ H1 eq_refl)|].
        destruct (numeral_first _ _ _ H1) as (d0 & w0 & v & Ew & Hd). injection Ew as <- <-.
        destruct (digit_value_is 16 d v ltac:(lia) Hd) as [_ El].
        unfold strto. cbn [skip_space]. change (isspace 48) with false. cbv iota. change (48 =? 45) with false. change (48 =? 43) with false. cbv iota.
        assert (Ex : (x =? 120) || (x =? 88) = true) by (destruct H0 as [-> | ->]; reflexivity).
        rewrite Ex, El. change (48 =? 48) with true. change (16 =? 16) with true. cbn [andb]. rewrite El.
        rewrite <- (app_nil_r (d :: w)), (digits_numeral 16 _ n ltac:(lia) H1 ltac:(lia)). reflexivity. }
      rewrite (strtoll_of _ _ _ S16), S16 by (split; [eapply numeral_nonneg; [|exact H1]; lia | lia]).
      eexists. split; [reflexivity|]. split; [apply before_here | split; reflexivity].
    + cbn [accepts]. assert (A : accept ([] ++ [48]) 0 x = true) by (destruct H0 as [-> | ->]; reflexivity). rewrite A. apply accepts_hexes. exact HX.
  - (* octal *)
    apply Forall_app in Hp. destruct Hp as [_ Hr].
    exists 48, w. split; [reflexivity|]. split; [unfold white; lia|]. intros st pre Hat.
    rewrite (number_place _ _ _ _ _ Hat) by (unfold digit; lia).
    pose proof (numeral_hexes 8 w n ltac:(lia) H0) as HX.
    rewrite (number_here [] 48 w (pre ++ [48]) r); auto; [|unfold digit; lia| | cbn in *; lia].
    + rewrite no_x_hexes by auto.
      destruct w as [|d w]; [destruct (numeral_ne _ _ _ H0 eq_refl)|].
      destruct (numeral_first _ _ _ H0) as (d0 & w0 & v & Ew & Hd). injection Ew as <- <-.
      unfold num_value. cbn [app]. change (at_ (48 :: d :: w) 0) with 48. change (at_ (48 :: d :: w) 1) with d.
      rewrite (proj2 (isdigit_iff d)) by (destruct Hd as (? & ?); unfold digit; lia). change (48 =? 48) with true. cbn [andb negb].
      assert (N8 : numeral 8 (48 :: d :: w) n).
      { replace n with (0 * 8 ^ Z.of_nat (length (d :: w)) + n) by lia. apply numeral_cons; auto. unfold digit_is. lia. }
      assert (S8 : strto 8 (48 :: d :: w) = Some (false, n, [])).
      { destruct (strto_numeral 8 (48 :: d :: w) n [] ltac:(lia) N8) as [E | (E & _)]; [intros ? ? E; discriminate | | lia].
        rewrite app_nil_r in E. exact E. }
      rewrite (strtoll_of _ _ _ S8), S8 by (split; [eapply numeral_nonneg; [|exact H0]; lia | lia]).
      eexists. split; [reflexivity|]. split; [apply before_here | split; reflexivity].
    + apply accepts_hexes. exact HX.
  - (* regular expression *)
    exists 47, (b ++ 47 :: fl). split; [reflexivity|]. split; [unfold white; lia|]. intros st pre Hat.
    assert (Hr : pos r) by (apply Forall_app in Hp; apply Hp).
    exists (here false (pre ++ 47 :: b ++ 47 :: fl) r). split; [|split; [apply before_here|split; reflexivity]].
    unfold LexModel.yylex1. rewrite Hat. cbv zeta. change (47 =? 46) with false. cbv iota. change (isdigit 47) with false.
    change (is_quote 47) with false. change (word_start 47) with false. change (47 =? 47) with true. cbv iota.
    destruct b as [|d b]; [contradiction|]. cbn [app].
    assert (d <> 0 /\ d <> 47) as [Hd0 Hd]. { inversion H1; subst; lia. }
    rewrite get_here by auto. destruct (Z.eqb_spec d 47); [contradiction|]. cbn [hd] in H3. destruct (Z.eqb_spec d 42); [contradiction|].
    rewrite unget_here by auto. rewrite (proj2 (before_regex_iff prev)) by auto. rewrite unget_here by lia.
    unfold do_regex. rewrite get_here by lia.
    change (d :: (b ++ 47 :: fl) ++ r) with ((d :: b ++ 47 :: fl) ++ r).
    replace ((d :: b ++ 47 :: fl) ++ r) with ((d :: b) ++ 47 :: fl ++ r) by (cbn; rewrite <- app_assoc; reflexivity).
    rewrite regex_here; auto.
    + change ([47] ++ (d :: b) ++ 47 :: fl) with (47 :: (d :: b) ++ 47 :: fl). rewrite H6. rewrite <- app_assoc. reflexivity.
    + rewrite left_here. rewrite !app_length. cbn [length]. lia.
  - (* operator *)
    destruct (operators_chars _ H0) as [Hc HL]. destruct lit as [|c s]; [cbn in HL; lia|].
    inversion Hc as [|? ? (C1 & C2 & C3 & C4 & C5 & C6 & C7) Hc']; subst.
    exists c, s. split; [reflexivity|]. split; [exact C2|]. intros st pre Hat.
    assert (Hr : pos r) by (apply Forall_app in Hp; apply Hp).
    assert (Hsr : pos (s ++ r)) by (inversion Hp; auto).
    rewrite (sign_place prev st pre c (s ++ r) Hat); auto; [| intros; contradiction |].
    + destruct (do_sign_here D pre (c :: s) r) as (l & E & Hl); auto; [discriminate | lia | |  |].
      * eapply Forall_impl; [|exact Hc]. cbv beta. unfold white. intros; lia.
      * intros buf rest E HLb. left. eapply sign_at_longest; eauto.
      * cbn [app] in E. rewrite E. exists l. split; [reflexivity|]. split; [exact Hl|].
        destruct s as [|? s]; [cbn in HL; lia|]. split; reflexivity.
    + intros ->. specialize (H2 eq_refl). destruct H2 as [H2 H4]. split; [|exact H4].
      destruct (before_regex D prev) eqn:EB; [|reflexivity]. exfalso. apply H2. apply before_regex_iff. exact EB.
  - (* symbol *)
    destruct H0 as ((C0 & C1) & C2 & C3 & C4 & C5).
    exists c, []. split; [reflexivity|]. split; [exact C2|]. intros st pre Hat. cbn [app] in *.
    assert (Hr : pos r) by (inversion Hp; auto).
    rewrite (sign_place prev st pre c r Hat); auto.
    + destruct (do_sign_here D pre [c] r) as (l & E & Hl); auto; [discriminate | | |].
      * constructor; [|constructor]. unfold white in C2. lia.
      * intros buf rest E HLb. right. split; [reflexivity|]. eapply sign_at_none; [exact E|]. exact H1.
      * cbn [app] in E. rewrite E. exists l. split; [reflexivity|]. split; [exact Hl|]. cbn [is_comment is_end].
        destruct (Z.eqb_spec c 128); [lia|]. destruct (Z.ltb_spec 127 c); [lia|]. auto.
    + intros ->. specialize (H3 eq_refl). destruct H3 as [H3 H5]. split; [|exact H5].
      destruct (before_regex D prev) eqn:EB; [|reflexivity]. exfalso. apply H3. apply before_regex_iff. exact EB.
Qed.
End Tok.
