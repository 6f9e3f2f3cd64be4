(** Properties of the lexer: the tokens of a program (C55), every text can be read (C56), string literals (C57). *)
From Coq Require Import ZArith List Bool Lia String Ascii.
Import ListNotations.
From Verif Require Import Bits UtfModel UtfSpec UtfProofs CodecModel JsonModel JsonSpec JsonProofs2 JsonProofs5 JsonProps MiscModel MiscSpec
  LexModel LexSpec LexProofs LexProofs2 LexProofs3 LexProofs4.
Local Open Scope Z_scope.
Local Open Scope list_scope.
Arguments TEnd {D}. Arguments TErr {D}. Arguments TBad {D}. Arguments TComment {D}.
Arguments TNum {D}. Arguments TStr {D}. Arguments TKey {D}. Arguments TIdent {D}. Arguments TRegex {D}. Arguments TSign {D}.

(** * C55 *)
(** A program made of words, literals, operators, white space and comments is read as these, in this order, up to
    its end. *)
Theorem lex_tokens : forall D of_ll strtod re_ok s ts,
  (forall w, decimal w -> snd (strtod w) = []) ->           (* strtod reads the whole of a decimal number *)
  Forall (fun c => 0 < c) s ->
  tokens D of_ll strtod re_ok TEnd s ts -> lex_text D of_ll strtod re_ok s = Some (ts, TEnd).
Proof.
  intros D of_ll strtod re_ok s ts HS Hp H. unfold lex_text. rewrite lex_all_from.
  change (mkLex s 0 [] false) with (here false [] s).
  eapply tokens_lex; eauto; [apply before_here | rewrite left_here; lia].
Qed.
(** Hence a program can be divided into tokens in one way only. *)
Corollary tokens_unique : forall D of_ll strtod re_ok s ts ts',
  (forall w, decimal w -> snd (strtod w) = []) -> Forall (fun c => 0 < c) s ->
  tokens D of_ll strtod re_ok TEnd s ts -> tokens D of_ll strtod re_ok TEnd s ts' -> ts = ts'.
Proof.
  intros D of_ll strtod re_ok s ts ts' HS Hp H H'.
  assert (E := lex_tokens _ _ _ _ _ _ HS Hp H). rewrite (lex_tokens _ _ _ _ _ _ HS Hp H') in E. congruence.
Qed.

(** Numbers as in the text *)
Definition D1 : Type := (Z + list Z)%type.
Definition std1 (w : list Z) : D1 * list Z := (inr w, []).
Notation lex1 s := (lex_text D1 inl std1 (fun _ => true) (txt s)).
Definition demo : string := "if(x1>>>=0x1F+3.5e-2)a=/[\/]/g;//end
y='it\'s\u0041'/*c*/ === 017/z".
Definition demo_tokens : list (tok D1) :=
  [TKey (txt "if"); TSign (txt "("); TIdent (txt "x1"); TSign (txt ">>>="); TNum (inl 31); TSign (txt "+"); TNum (inr (txt "3.5e-2"));
   TSign (txt ")"); TIdent (txt "a"); TSign (txt "="); TRegex (txt "/[\/]/g"); TSign (txt ";"); TIdent (txt "y"); TSign (txt "=");
   TStr (txt "it'sA"); TSign (txt "==="); TNum (inl 15); TSign (txt "/"); TIdent (txt "z")].
Example demo_lexed : lex1 demo = Some (demo_tokens, TEnd).
Proof. vm_compute. reflexivity. Qed.

(** The hypotheses hold of a program with a word, operators, numbers, a string, a regular expression and a comment *)
Ltac not_op := intros s' r' I E; cbn in I; repeat (destruct I as [<- | I]; [cbn in E; try discriminate; try (cbn; lia) |]); contradiction.
Ltac no_newline := intros a b E; cbn in E; repeat (destruct a as [|? a]; cbn in E; try discriminate; injection E as <- E).
Example tokens_meet : tokens D1 inl std1 (fun _ => true) TEnd (txt "x >>=0x1F/*c*/;y=/r/g")
  [TIdent (txt "x"); TSign (txt ">>="); TNum (inl 31); TSign (txt ";"); TIdent (txt "y"); TSign (txt "="); TRegex (txt "/r/g")].
Proof.
  apply (tk_token D1 inl std1 (fun _ => true) TEnd [] (txt "x") (TIdent (txt "x")) (txt " >>=0x1F/*c*/;y=/r/g")); [constructor| |].
  { apply (lx_word D1 inl std1 (fun _ => true) TEnd 120 [] (txt " >>=0x1F/*c*/;y=/r/g")); [unfold letter; lia | constructor | cbn; lia | cbn; unfold letter, digit; lia]. }
  apply (tk_token D1 inl std1 (fun _ => true) _ (txt " ") (txt ">>=") (TSign (txt ">>=")) (txt "0x1F/*c*/;y=/r/g")); [constructor; [unfold white; cbn; lia|constructor] | |].
  { apply lx_operator; [cbn; tauto | not_op | cbn; lia | no_newline]. }
  apply (tk_token D1 inl std1 (fun _ => true) _ [] (txt "0x1F") (TNum (inl 31)) (txt "/*c*/;y=/r/g")); [constructor| |].
  { apply (lx_hex D1 inl std1 (fun _ => true) _ 120 (txt "1F") 31); [auto | | lia | cbn; lia |].
    - replace 31 with (1 * 16 + 15) by lia. change (txt "1F") with ([49] ++ [70]). apply num_more; [apply num_one|]; unfold digit_is; lia.
    - cbn. unfold number_goes_on, hexdigit, digit. intros [H | [H | [H | [H | [[H _] | [H _]]]]]]; try lia; try discriminate H. }
  apply (tk_block D1 inl std1 (fun _ => true) _ [] (txt "c") (txt ";y=/r/g")); [constructor | repeat constructor | |].
  { intros x y E. destruct x as [|? [|? [|? x]]]; cbn in E; discriminate. }
  apply (tk_token D1 inl std1 (fun _ => true) _ [] (txt ";") (TSign (txt ";")) (txt "y=/r/g")); [constructor| |].
  { apply (lx_symbol D1 inl std1 (fun _ => true) _ 59); [unfold symbol, white, digit, letter; cbn [In]; lia | not_op | discriminate | discriminate | no_newline]. }
  apply (tk_token D1 inl std1 (fun _ => true) _ [] (txt "y") (TIdent (txt "y")) (txt "=/r/g")); [constructor| |].
  { apply (lx_word D1 inl std1 (fun _ => true) _ 121 [] (txt "=/r/g")); [unfold letter; lia | constructor | cbn; lia | cbn; unfold letter, digit; lia]. }
  apply (tk_token D1 inl std1 (fun _ => true) _ [] (txt "=") (TSign (txt "=")) (txt "/r/g")); [constructor| |].
  { apply (lx_symbol D1 inl std1 (fun _ => true) _ 61); [unfold symbol, white, digit, letter; cbn [In]; lia | not_op | discriminate | discriminate | no_newline]. }
  apply (tk_token D1 inl std1 (fun _ => true) _ [] (txt "/r/g") (TRegex (txt "/r/g")) []); [constructor| |].
  { apply (lx_regex D1 inl std1 (fun _ => true) _ (txt "r") (txt "g") []); [cbn; auto | | discriminate | cbn; lia | | exact I | reflexivity | cbn; lia].
    - apply rb_char; [cbn; lia | cbn; lia | cbn; lia | constructor].
    - constructor; [left; unfold letter; cbn; lia | constructor]. }
  apply tk_end. constructor.
Qed.

(** False of the code: white space always separates words.  A newline that comes within four characters after the
    first of an operator, with something else before it, is lost. *)
Theorem newline_lost_refuted : lex1 "(x
y)" = Some ([TSign (txt "("); TIdent (txt "xy"); TSign (txt ")")], TEnd).
Proof. vm_compute. reflexivity. Qed.
Theorem newline_lost_comment_refuted : lex1 ";//
x" = Some ([TSign (txt ";")], TEnd).
Proof. vm_compute. reflexivity. Qed.
Theorem newline_lost_string_refuted : lex1 "=`
a`" = Some ([TSign (txt "="); TStr (txt "a")], TEnd).
Proof. vm_compute. reflexivity. Qed.
(** False of the code: every number of JavaScript is read *)
Theorem zero_exponent_refuted : lex1 "0e1" = Some ([], TErr).
Proof. vm_compute. reflexivity. Qed.
(** nor is a sign after a hexadecimal number that ends with E an operator: strtod gets 0xe-1 and reads 0xe *)
Theorem hex_minus_refuted : lex_text D1 inl (fun w => (inr (firstn 3 w), skipn 3 w)) (fun _ => true) (txt "0xe-1") = Some ([], TErr).
Proof. vm_compute. reflexivity. Qed.
(** False of the code: a long identifier is one token *)
Theorem long_word_refuted : lex_text D1 inl std1 (fun _ => true) (repeat 97 1020) = Some ([TIdent (repeat 97 1020); TIdent [97]], TEnd).
Proof. vm_compute. reflexivity. Qed.
(** False of the code: text after a character above 127 (here of an identifier) is read, or reported *)
Theorem non_ascii_ends_refuted : lex_text D1 inl std1 (fun _ => true) (txt "a=1;" ++ [195; 169] ++ txt "=2;") =
  Some ([TIdent (txt "a"); TSign (txt "="); TNum (inr (txt "1")); TSign (txt ";")], TSign [195]).
Proof. vm_compute. reflexivity. Qed.
Theorem byte_128_skipped_refuted : lex_text D1 inl std1 (fun _ => true) (txt "a" ++ [128] ++ txt "=1") =
  Some ([TIdent (txt "a"); TSign (txt "="); TNum (inr (txt "1"))], TEnd).
Proof. vm_compute. reflexivity. Qed.
(** False of the code: the reserved word ... is one token *)
Theorem ellipsis_refuted : lex1 "...a" = Some ([TSign (txt "."); TSign (txt "."); TSign (txt "."); TIdent (txt "a")], TEnd).
Proof. vm_compute. reflexivity. Qed.

(** * C56 *)
(** Every text is read to an end, an error or a character that the parser takes for the end, with no more tokens
    than characters, and never more than three characters are put back (None in the model: a write outside of the
    array of characters put back, or a loop that does not end). *)
Theorem lex_total : forall D of_ll strtod re_ok s, exists ts e,
  lex_text D of_ll strtod re_ok s = Some (ts, e) /\ is_end D e = true /\ Forall (fun t => is_end D t = false) ts /\ (List.length ts <= List.length s)%nat.
Proof.
  intros. unfold lex_text. change (mkLex s 0 [] false) with (here false [] s).
  assert (HG : good (here false [] s)) by (split; [split; [cbn; lia | cbn; auto] | reflexivity]).
  destruct (lex_all_total D of_ll strtod re_ok (S (List.length s)) TEnd (here false [] s) HG) as (ts & e & E & A & B & C).
  - rewrite left_here. lia.
  - exists ts, e. rewrite left_here in C. auto.
Qed.
Example total_meets : lex1 "'abc" = Some ([], TErr) /\ lex1 "a /* b" = Some ([TIdent (txt "a")], TEnd).
Proof. split; vm_compute; reflexivity. Qed.

(** * C57 *)
(** A text that begins with a quote is read as the string [v] exactly if a literal that spells [v] and another
    quote follow. *)
Theorem string_literal : forall D of_ll strtod re_ok q t v, In q [34; 39; 96] -> Forall (fun c => 0 < c <= 255) t ->
  (exists ts e, lex_text D of_ll strtod re_ok (q :: t) = Some (TStr v :: ts, e)) <->
  (exists lit r, t = lit ++ q :: r /\ spells q lit v).
Proof.
  intros D of_ll strtod re_ok q t v Hq Ht.
  assert (Hp : forall x, Forall (fun c => 0 < c <= 255) x -> pos x) by (intros x H; eapply Forall_impl; [|exact H]; cbv beta; lia).
  assert (Q : q <> 0 /\ q <> 46 /\ isdigit q = false /\ is_quote q = true /\ ~ white q /\ 0 < q).
  { cbn in Hq. destruct Hq as [<- | [<- | [<- | []]]]; unfold white; repeat split; try lia; reflexivity. }
  destruct Q as (Q0 & Q1 & Q2 & Q3 & Q4 & Q5).
  assert (Y : forall last, yylex1 D of_ll strtod re_ok last (here false [] (q :: t)) =
    match string_loop (S (List.length t)) q (here true [q] t) [] with
    | None => None
    | Some (Some s, l) => Some (TStr s, set_inStr false l)
    | Some (None, l) => Some (TErr, set_inStr false l)
    end).
  { intros last. unfold yylex1. destruct (place (q :: t) (here false [] (q :: t)) [] q t (before_here [] (q :: t)) eq_refl) as (pre & A & _); auto.
    assert (pre = []).
    { unfold at_place in A. change (q :: t) with ([] ++ q :: t) in A. rewrite skip_ws_here in A; auto; [|rewrite left_here; cbn; lia].
      assert (A2 := f_equal (fun o : option (Z * lexer) => match o with Some (_, l) => cur l | None => 0%nat end) A).
      cbn [here cur app] in A2. rewrite app_length in A2. cbn [List.length] in A2. destruct pre; [reflexivity | cbn in A2; lia]. }
    subst pre. unfold at_place in A. rewrite A. cbv zeta. destruct (Z.eqb_spec q 46); [contradiction|]. rewrite Q2, Q3. rewrite unget_here by auto. unfold do_string.
    change (set_inStr true (here false [] (q :: t))) with (here true [] (q :: t)). rewrite get_here by auto. rewrite left_here. cbn [app].
    destruct (string_loop (S (List.length t)) q (here true [q] t) []) as [[[s|] l]|]; reflexivity. }
  unfold lex_text. rewrite lex_all_from. change (mkLex (q :: t) 0 [] false) with (here false [] (q :: t)).
  unfold lex_from. cbn [yylex]. rewrite Y. split.
  - intros (ts & e & E). destruct (string_loop (S (List.length t)) q (here true [q] t) []) as [[[s|] l]|] eqn:L; cbn [is_comment is_end] in E; try discriminate.
    assert (s = v).
    { destruct (lex_all D of_ll strtod re_ok (List.length (q :: t)) (TStr s) (set_inStr false l)) as [[? ?]|]; [congruence | discriminate]. }
    subst s. destruct (string_loop_inv _ _ _ _ _ _ _ Ht L) as (lit & v' & r & -> & Hs & -> & _). exists lit, r. auto.
  - intros (lit & r & -> & Hs). rewrite (string_loop_here q lit v Hs Hq) by (rewrite app_length; cbn; lia). cbn [app is_comment is_end].
    change (set_inStr false (here true ?a ?b)) with (here false a b).
    match goal with |- context [lex_all D of_ll strtod re_ok ?f ?t0 ?l0] => destruct (lex_all_total D of_ll strtod re_ok f t0 l0) as (ts & e & E & _) end.
    + split; [split; [cbn; lia | cbn; auto] | reflexivity].
    + rewrite left_here. cbn [List.length]. rewrite app_length. cbn. lia.
    + rewrite E. exists ts, e. reflexivity.
Qed.
(** Two literals that spell the same text between the same quotes followed by anything: the end of the literal is
    determined as well. *)
Corollary literal_end_unique : forall q lit r v lit' r' v', In q [34; 39; 96] -> Forall (fun c => 0 < c <= 255) (lit ++ q :: r) ->
  spells q lit v -> spells q lit' v' -> lit ++ q :: r = lit' ++ q :: r' -> lit = lit' /\ v = v'.
Proof.
  intros q lit r v lit' r' v' Hq Hp H H' E.
  pose proof (string_loop_here q lit v H Hq (S (List.length lit + List.length lit')) [] r []) as A.
  pose proof (string_loop_here q lit' v' H' Hq (S (List.length lit + List.length lit')) [] r' []) as B.
  specialize (A ltac:(lia)). specialize (B ltac:(lia)). rewrite E in A. rewrite A in B. injection B as EV E1 E2.
  split; [|exact EV].
  assert (K : List.length lit = List.length lit') by (rewrite !app_length in E2; cbn in E2; lia).
  apply (prefix_of_both lit lit' [] (q :: r) (q :: r') E K).
Qed.

(** The text that JSON.stringify writes for a string is a literal of that string. *)
Lemma escape_spells : forall c, bmp c -> forall lit s, spells 34 lit s -> spells 34 (esc1 c ++ lit) (utf8 c ++ s).
Proof.
  intros c Hc lit s H. unfold esc1. destruct (json_special c) as [d|] eqn:J.
  - assert (G : utf8 c = [c] /\ escaped d c /\ 0 < d < 255).
    { unfold json_special in J. destruct ((c =? 92) || (c =? 34)) eqn:A.
      - injection J as <-. apply orb_true_iff in A. destruct A as [A|A]; apply Z.eqb_eq in A; subst; (split; [reflexivity|]); unfold escaped; cbn [In]; lia.
      - repeat (match type of J with (if ?b then _ else _) = _ => let E := fresh in destruct b eqn:E end;
          [injection J as <-; b2p; subst; split; [reflexivity|]; unfold escaped; cbn [In]; lia|]). discriminate. }
    destruct G as (-> & G1 & G2). cbn [app]. apply sp_escape; auto.
  - destruct (isprint c) eqn:P.
    + assert (c <> 92 /\ c <> 34) as [N1 N2].
      { unfold json_special in J. destruct ((c =? 92) || (c =? 34)) eqn:A; [discriminate|]. apply orb_false_iff in A. destruct A as [A B]. b2p. auto. }
      assert (32 <= c <= 126) by (unfold isprint in P; apply andb_true_iff in P; destruct P; b2p; lia).
      assert (U : utf8 c = [c]) by (unfold utf8; destruct (Z.ltb_spec c 128); [reflexivity|lia]).
      rewrite U. cbn [app]. apply sp_char; auto. lia.
    + destruct (hex4_parts c Hc) as (P1 & P2 & P3 & P4).
      destruct (hexd_ok _ P1) as (X1 & F1 & _). destruct (hexd_ok _ P2) as (X2 & F2 & _).
      destruct (hexd_ok _ P3) as (X3 & F3 & _). destruct (hexd_ok _ P4) as (X4 & F4 & _).
      unfold hex4. cbn [app]. apply sp_unicode; auto.
      replace c with (((c / 4096 * 16 + c / 256 mod 16) * 16 + c / 16 mod 16) * 16 + c mod 16) at 5 by (Z.div_mod_to_equations; lia).
      change ([?a; ?b; ?x; ?y]) with ([a; b; x] ++ [y]). apply num_more; [|rewrite <- F4 at 2; apply hex_is; auto].
      change ([?a; ?b; ?x]) with ([a; b] ++ [x]). apply num_more; [|rewrite <- F3 at 2; apply hex_is; auto].
      change ([?a; ?b]) with ([a] ++ [b]). apply num_more; [|rewrite <- F2 at 2; apply hex_is; auto]. apply num_one. rewrite <- F1 at 2. apply hex_is; auto.
Qed.
Theorem stringified_is_literal : forall D of_ll strtod re_ok cs, (forall w, decimal w -> snd (strtod w) = []) -> Forall bmp cs ->
  lex_text D of_ll strtod re_ok (json_quote (text cs)) = Some ([TStr (text cs)], TEnd).
Proof.
  intros D of_ll strtod re_ok cs HS H. apply lex_tokens; auto.
  - eapply Forall_impl; [|apply quoted_is_printable_ascii]. cbv beta. lia.
  - rewrite <- stringify_string_is_quote, json_string_text by auto.
    change (34 :: flat_map esc1 cs ++ [34]) with ([] ++ (34 :: flat_map esc1 cs ++ [34])).
    rewrite <- (app_nil_r (34 :: flat_map esc1 cs ++ [34])).
    eapply tk_token; [constructor | | apply tk_end; constructor].
    apply lx_string; [cbn; auto|]. induction H as [|c cs Hc Hcs IH]; [constructor|]. cbn [flat_map text]. fold (text cs). apply escape_spells; auto.
Qed.
Example stringified_meets : Forall bmp [34; 92; 10; 7; 65; 0xe9; 0x20ac].
Proof. repeat constructor. Qed.
Example literal_meets : spells 39 (txt "it\'s\n\u0041") (txt "it's" ++ [10; 65]).
Proof.
  change (spells 39 [105; 116; 92; 39; 115; 92; 110; 92; 117; 48; 48; 52; 49] [105; 116; 39; 115; 10; 65]). do 2 (apply sp_char; [lia|lia|lia|]). apply sp_escape; [lia | unfold escaped; cbn [In]; lia|]. apply sp_char; [lia|lia|lia|].
  apply sp_escape; [lia | unfold escaped; cbn [In]; lia|]. change [65] with (utf8 65 ++ []). apply sp_unicode; [|constructor].
  replace 65 with (((0 * 16 + 0) * 16 + 4) * 16 + 1) by lia.
  change [48; 48; 52; 49] with ([48; 48; 52] ++ [49]). apply num_more; [|unfold digit_is; lia].
  change [48; 48; 52] with ([48; 48] ++ [52]). apply num_more; [|unfold digit_is; lia].
  change [48; 48] with ([48] ++ [48]). apply num_more; [|unfold digit_is; lia]. apply num_one. unfold digit_is; lia.
Qed.
(** False of the code: a backslash before a newline continues the line *)
Theorem continuation_kept_refuted : lex1 "'a\
b'" = Some ([TStr (txt "a" ++ [10] ++ txt "b")], TEnd).
Proof. vm_compute. reflexivity. Qed.
(** False of the code: \x41 is a character *)
Theorem hex_escape_refuted : lex1 "'\x41'" = Some ([TStr (txt "x41")], TEnd).
Proof. vm_compute. reflexivity. Qed.

Print Assumptions lex_tokens.
Print Assumptions tokens_unique.
Print Assumptions lex_total.
Print Assumptions string_literal.
Print Assumptions literal_end_unique.
Print Assumptions stringified_is_literal.
