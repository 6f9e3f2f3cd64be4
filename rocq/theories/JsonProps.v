(** * JSON: properties C10, C11, C12 *)
From Coq Require Import ZArith List Bool Lia Sorted.
From Verif Require Import Bits UtfModel UtfSpec UtfProofs CodecModel TreeModel TreeSpec TreeProps JsonModel JsonSpec JsonProofs JsonProofs2 JsonProofs3 JsonProofs4 JsonProofs5 JsonProofs6 JsonProofs7 NumProps NumJson.
From Verif Require NumModel NumSpec.
From Coq Require QArith Qabs SpecFloat.
Import ListNotations.
Local Open Scope Z_scope.

Section Prec.
Context {dp : prec}.

(** ** C12: the tokenizer is total, and accepts only inputs whose tokens are well nested *)
Theorem tokenizer_total_well_nested : forall strict js, Forall (fun c => 0 < c < 256) js ->
  exists r, json_parse strict js = Some r /\
    match r with inl s => well_nested js (toks s) | inr _ => True end.
Proof. exact json_parse_total. Qed.

(* an error is reported at a position of the input *)
Lemma run_err_pos : forall fuel st js s e p, (pos s <= length js)%nat -> cstr js -> inv js s ->
  run fuel st js s = Some (inr (e, p)) -> (p <= length js)%nat.
Proof.
  induction fuel as [|fuel IH]; intros st js s e p HP C I H; cbn [run] in H.
  - destruct (at_ js (pos s) =? 0); [|discriminate]. destruct (find_open _ _); [|discriminate].
    injection H as _ <-. auto.
  - destruct (at_ js (pos s) =? 0) eqn:A.
    + destruct (find_open _ _); [|discriminate]. injection H as _ <-. auto.
    + b2p. apply at_nz in A; auto. destruct (step st js s) as [s'|[e' p']] eqn:S.
      * pose proof (step_inv st js s s' C A I S) as (I' & L). apply (IH st js s' e p); auto; try lia; apply I'.
      * injection H as <- <-. unfold step in S. cbv zeta in S.
        repeat match type of S with
        | (if ?b then _ else _) = _ => destruct b
        | match ?x with _ => _ end = _ => destruct x as [?|?] || destruct x
        end; try discriminate; injection S as _ <-; lia.
Qed.
Theorem tokenizer_error_in_input : forall strict js e p, Forall (fun c => 0 < c < 256) js ->
  json_parse strict js = Some (inr (e, p)) -> (p <= length js)%nat.
Proof. intros strict js e p C H. eapply run_err_pos; eauto; [cbn; lia|]. apply inv0. Qed.

(** The invariants are met by a real document: an object with a nested array and a string containing
    brackets and an escaped quote. *)
Example tokenizer_ex :
  json_parse true [123;34;97;34;58;91;49;44;34;93;92;34;34;93;44;34;98;34;58;123;125;125] =
  Some (inl (mkP 22 [mkTok Obj 0 22 4 (-1); mkTok Str 2 3 0 0; mkTok Arr 5 14 2 0; mkTok Prim 6 7 0 2; mkTok Str 9 12 0 2;
                     mkTok Str 16 17 0 0; mkTok Obj 19 21 0 0] None (Some 6%nat) (Some 0%nat))).
Proof. vm_compute. reflexivity. Qed.
(** A mismatched closer is refused. *)
Example tokenizer_bad : json_parse false [123; 91; 125; 93] = Some (inr (INVAL, 2%nat)).
Proof. vm_compute. reflexivity. Qed.

(** ** C10: quoting *)
Lemma hexc_ok : forall x, isxdigit (to_hex_char x) = true /\ to_hex_char x <> 34 /\ to_hex_char x <> 92.
Proof.
  intros x. unfold to_hex_char. change 15 with (2 ^ 4 - 1). rewrite (land_pow2 x 4) by lia. change (2 ^ 4) with 16.
  assert (0 <= x mod 16 < 16) as B by (apply Z.mod_pos_bound; lia).
  destruct (hexd_ok _ B) as (H1 & _ & H2 & H3). auto.
Qed.
Lemma escape_scan : forall fuel s r, str_scan (escape fuel s ++ 34 :: r) = inl (length (escape fuel s)).
Proof.
  induction fuel as [|fuel IH]; intros s r; [reflexivity|]. cbn [escape]. destruct s as [|c s]; [reflexivity|].
  destruct (json_special c) as [d|] eqn:JS.
  - assert (SE : simple_escape d = true).
    { unfold json_special in JS. unfold simple_escape.
      destruct ((c =? 92) || (c =? 34)) eqn:A.
      - injection JS as <-. apply orb_true_iff in A as [A|A]; rewrite A; rewrite ?orb_true_r; auto.
      - repeat match type of JS with (if ?b then _ else _) = _ => destruct b; [injection JS as <-; reflexivity|] end. discriminate. }
    cbn [app str_scan length]. change (92 =? 34) with false. change (92 =? 92) with true. cbn iota. rewrite SE. cbn [orb].
    rewrite IH. reflexivity.
  - assert (C1 : c <> 34 /\ c <> 92).
    { split; intros ->; discriminate JS. }
    destruct (isprint c).
    + cbn [app length]. rewrite scan_plain, IH by tauto. reflexivity.
    + destruct (utf_encode6 (c :: s)) as [u l] eqn:U. unfold utf_encode6 in U.
      destruct (utf_to_unichar (c :: s)) as [iv il]. injection U as <- <-.
      set (h1 := to_hex_char (Z.shiftr (Z.land iv 0xf000) 12)). set (h2 := to_hex_char (Z.shiftr (Z.land iv 0xf00) 8)).
      set (h3 := to_hex_char (Z.shiftr (Z.land iv 0xf0) 4)). set (h4 := to_hex_char (Z.land iv 0x0f)).
      destruct (hexc_ok (Z.shiftr (Z.land iv 0xf000) 12)) as (A1 & A2 & A3). destruct (hexc_ok (Z.shiftr (Z.land iv 0xf00) 8)) as (B1 & B2 & B3).
      destruct (hexc_ok (Z.shiftr (Z.land iv 0xf0) 4)) as (D1 & D2 & D3). destruct (hexc_ok (Z.land iv 0x0f)) as (E1 & E2 & E3).
      fold h1 in A1, A2, A3. fold h2 in B1, B2, B3. fold h3 in D1, D2, D3. fold h4 in E1, E2, E3.
      set (b := escape fuel (skipn il (c :: s))).
      assert (X : str_scan (b ++ 34 :: r) = inl (length b)) by (subst b; apply IH).
      clearbody h1 h2 h3 h4 b.
      assert (X1 : str_scan (h1 :: h2 :: h3 :: h4 :: b ++ 34 :: r) = inl (S (S (S (S (length b)))))).
      { repeat (rewrite scan_plain by auto). rewrite X. reflexivity. }
      assert (X2 : isxdigit (at_ (h1 :: h2 :: h3 :: h4 :: b ++ 34 :: r) 0) && isxdigit (at_ (h1 :: h2 :: h3 :: h4 :: b ++ 34 :: r) 1)
        && isxdigit (at_ (h1 :: h2 :: h3 :: h4 :: b ++ 34 :: r) 2) && isxdigit (at_ (h1 :: h2 :: h3 :: h4 :: b ++ 34 :: r) 3) = true).
      { unfold at_. cbn [nth]. rewrite A1, B1, D1, E1. reflexivity. }
      cbn [app length]. generalize dependent (h1 :: h2 :: h3 :: h4 :: b ++ 34 :: r). intros q X1 X2.
      cbn [str_scan]. change (92 =? 34) with false. change (92 =? 92) with true. cbn iota.
      change (simple_escape 117) with false. change (117 =? 117) with true. cbn [orb andb]. rewrite X2, X1. reflexivity.
Qed.

Lemma quoted_tok : forall strict s,
  exists st, json_parse strict (json_quote s) = Some (inl st) /\
    toks st = [mkTok Str 1 (Z.of_nat (length (json_quote s)) - 1) 1 (-1)].
Proof.
  intros strict s. unfold json_parse.
  destruct (json_quote s) as [|q r] eqn:Q; [discriminate|]. unfold json_quote in Q. rewrite quote_escape in Q.
  injection Q as <- <-. set (b := escape (length s) s).
  assert (SC : str_scan (b ++ [34]) = inl (length b)) by apply escape_scan. clearbody b.
  cbn [length]. rewrite app_length, Nat.add_1_r. cbn [length].
  set (js := 34 :: b ++ [34]).
  assert (A0 : at_ js 0 = 34) by reflexivity.
  assert (AT : at_ js (S (1 + length b)) = 0).
  { subst js. unfold at_. apply nth_overflow. cbn [length]. rewrite app_length. cbn. lia. }
  assert (SK : skipn 1 js = b ++ [34]) by reflexivity. clearbody js.
  cbn [run]. cbn [pos pst0]. rewrite A0. cbn [Z.eqb Pos.eqb].
  unfold step. cbn [pos pst0 toks super index cur]. rewrite A0. cbn [Z.eqb Pos.eqb orb]. rewrite SK, SC.
  cbn [run pos]. rewrite AT. cbn [Z.eqb]. cbn [toks app]. eexists. split; [reflexivity|]. cbn [toks].
  cbn [bump upd nth_error firstn skipn app]. unfold incr_size. cbn [tty tst ten tsz tpar par_of]. do 2 f_equal; lia.
Qed.
(** The quoted form of every string (any bytes, valid UTF-8 or not) is read as exactly one string token
    that spans the whole text: nothing in the content can end it early or make it invalid. *)
Theorem quoted_is_one_token : forall strict s,
  exists st, json_parse strict (json_quote s) = Some (inl st) /\
    exists sz, toks st = [mkTok Str 1 (Z.of_nat (length (json_quote s)) - 1) sz (-1)].
Proof. intros strict s. destruct (quoted_tok strict s) as (st & H1 & H2). eauto. Qed.
(** JSON.stringify of a string is the same text. *)
Theorem stringify_string_is_quote : forall s, json_string s = json_quote s.
Proof. intros. unfold json_string, json_quote. rewrite quote_escape. reflexivity. Qed.

(** ... and consists of printable ASCII characters only. *)
Theorem quoted_is_printable_ascii : forall s, Forall (fun c => 32 <= c <= 126) (json_quote s).
Proof.
  intros s. rewrite <- stringify_string_is_quote. unfold json_string. constructor; [lia|]. apply Forall_app.
  split; [apply escape_print|repeat constructor; lia].
Qed.

Lemma parse_quoted : forall M strict s,
  let b := escape (length s) s in
  json_parse_value M strict (json_quote s) = Some (RValue (JStr (unescape (S (length b)) (b ++ [34]) (Z.of_nat (length b))))).
Proof.
  intros M strict s b. destruct (quoted_tok strict s) as (st & H1 & H2).
  unfold json_parse_value. rewrite <- stringify_string_is_quote in *. unfold json_string in *. fold b in H1, H2. fold b.
  clearbody b. cbn [skip_space]. change (isspace 34) with false. cbn iota.
  change (eqb_list (34 :: b ++ [34]) s_true) with false. change (eqb_list (34 :: b ++ [34]) s_false) with false.
  change (eqb_list (34 :: b ++ [34]) s_null) with false. cbn iota.
  change (isdigit (at_ (34 :: b ++ [34]) 0) || (at_ (34 :: b ++ [34]) 0 =? 45)) with false. cbn iota. rewrite H1, H2.
  cbn [nth_error tsz tty]. change (1 <=? 0) with false. cbn iota. cbn [length gen nth_error tty].
  unfold tokstr. cbn [tst ten]. change (Z.to_nat 1) with 1%nat. cbn [skipn]. rewrite app_length. cbn [length].
  replace (Z.of_nat (S (length b + 1)) - 1 - 1) with (Z.of_nat (length b)) by lia. rewrite Nat2Z.id. reflexivity.
Qed.

(** Reading the quoted form gives the string back - for the texts of characters up to U+FFFF.  The
    property asks for every string; characters beyond U+FFFF are refuted below. *)
Theorem quote_parse_roundtrip : forall M strict cs, Forall bmp cs ->
  json_parse_value M strict (json_quote (text cs)) = Some (RValue (JStr (text cs))).
Proof.
  intros M strict cs H. rewrite parse_quoted. cbv zeta. rewrite escape_text by auto.
  rewrite unescape_text by (auto; lia). reflexivity.
Qed.
Example bmp_ex : Forall bmp [34; 92; 10; 65; 0xe9; 0x20ac] /\ json_quote (text [34; 92; 10; 65; 0xe9]) =
  [34; 92;34; 92;92; 92;110; 65; 92;117;48;48;101;57; 34].
Proof. split; [repeat constructor; unfold bmp; lia|vm_compute; reflexivity]. Qed.
(** U+1F600 comes back as U+F600: the escape keeps only 16 bits. *)
Theorem quote_parse_roundtrip_refuted : exists c, character c /\ forall M strict,
  json_parse_value M strict (json_quote (text [c])) = Some (RValue (JStr (text [0xf600]))) /\ text [0xf600] <> text [c].
Proof.
  exists 0x1f600. split; [unfold character; lia|]. intros M strict. rewrite parse_quoted. split; [|vm_compute; discriminate].
  vm_compute. reflexivity.
Qed.
(** The escape backslash-slash, valid JSON, loses its character. *)
Theorem slash_escape_refuted : forall M strict,
  json_parse_value M strict [34; 97; 92; 47; 98; 34] = Some (RValue (JStr [97; 98])).
Proof. intros M [|]; vm_compute; reflexivity. Qed.

(** ** C11: JSON.parse(JSON.stringify(v)) = v *)
Lemma run_more : forall n m st js s r, run n st js s = Some r -> run (n + m) st js s = Some r.
Proof.
  induction n; intros m st js s r H; cbn [run Nat.add] in *.
  - destruct m; cbn [run]; destruct (at_ js (pos s) =? 0); auto; discriminate.
  - destruct (at_ js (pos s) =? 0); auto. destruct (step st js s); auto.
Qed.
Lemma ctx0 : ctx pst0.
Proof. constructor; cbn; auto; discriminate. Qed.

Lemma at_end : forall js, at_ js (length js) = 0.
Proof. intros. unfold at_. apply nth_overflow. lia. Qed.

Lemma hexd_byte : forall n, 0 <= n < 16 -> 0 < hexd n < 256.
Proof.
  intros n Hn. assert (H : ((0 <? hexd n) && (hexd n <? 256)) = true).
  { revert n Hn. apply (range_forall 16 (fun n => (0 <? hexd n) && (hexd n <? 256))). vm_compute. reflexivity. }
  apply andb_true_iff in H as [? ?]. b2p. lia.
Qed.
Lemma esc1_cstr : forall c, bmp c -> cstr (esc1 c).
Proof.
  intros c H. unfold esc1, cstr. destruct (json_special c) as [d|] eqn:J.
  - assert (0 < d < 256); [|repeat constructor; lia]. unfold json_special in J.
    destruct ((c =? 92) || (c =? 34)) eqn:A; [injection J as <-; apply orb_true_iff in A as [A|A]; b2p; lia|].
    repeat match type of J with (if ?b then _ else _) = _ => destruct b; [injection J as <-; lia|] end. discriminate.
  - destruct (isprint c) eqn:P.
    + unfold isprint in P. apply andb_true_iff in P as [? ?]. b2p. constructor; [lia|constructor].
    + destruct (hex4_parts c H) as (A & B & C & D). unfold hex4. repeat constructor; try lia; apply hexd_byte; auto.
Qed.
Lemma cat_cstr : forall l, Forall cstr l -> forall first, cstr (cat first l).
Proof.
  unfold cstr. induction 1; intros first; cbn [cat]; [constructor|]. apply Forall_app. split; [destruct first; repeat constructor; lia|].
  apply Forall_app. auto.
Qed.
Lemma txt_cstr : forall M v, json_tree dp M v -> cstr (txt v).
Proof.
  intros M v. induction v using jval_ind'; intros OK.
  - inversion OK.
  - unfold cstr. repeat constructor; lia.
  - unfold cstr. destruct b; repeat constructor; lia.
  - inversion OK; subst. destruct (carried_text dp n H0) as [(_ & _ & NT) _]. eapply Forall_impl; [|exact NT]. intros c Hc. unfold num_char in Hc. cbn [In] in Hc. lia.
  - inversion OK as [| | |cs Hcs| |]; subst. cbn [txt]. rewrite json_string_text by auto. unfold cstr. constructor; [lia|].
    apply Forall_app. split; [|repeat constructor; lia]. clear -Hcs. induction Hcs; cbn [flat_map]; [constructor|].
    apply Forall_app. split; auto. apply esc1_cstr; auto.
  - apply ok_arr_inv in OK as [OK _]. destruct l as [|v l]; [unfold cstr; cbn [txt]; repeat constructor; lia|].
    change (txt (JArr (v :: l))) with ([91; 32] ++ cat true (map txt (v :: l)) ++ [32; 93]).
    unfold cstr. apply Forall_app; split; [repeat constructor; lia|]. apply Forall_app; split; [|repeat constructor; lia].
    apply cat_cstr. apply Forall_map. rewrite Forall_forall in *. auto.
  - apply ok_obj_inv in OK as (PK & OK). destruct l as [|v l]; [unfold cstr; cbn [txt]; repeat constructor; lia|].
    change (txt (JObj (v :: l))) with ([123; 32] ++ cat true (map (fun kv => 34 :: fst kv ++ 34 :: 58 :: txt (snd kv)) (v :: l)) ++ [32; 125]).
    unfold cstr. apply Forall_app; split; [repeat constructor; lia|]. apply Forall_app; split; [|repeat constructor; lia].
    apply cat_cstr. apply Forall_map. rewrite Forall_forall in *. intros kv Hkv. specialize (PK _ Hkv). specialize (OK _ Hkv).
    specialize (H _ Hkv OK). unfold cstr in *. constructor; [lia|]. apply Forall_app. split.
    + eapply Forall_impl; [|exact PK]. intros c Hc. cbv beta in Hc. lia.
    + constructor; [lia|]. constructor; [lia|]. auto.
Qed.

Lemma parse_cont : forall M st v, json_tree dp M v -> iscont v ->
  exists s, json_parse st (txt v) = Some (inl s) /\ toks s = ptoks v 0 (-1) 0.
Proof.
  intros M st v OK C. set (js := txt v).
  destruct (val_run M st js v OK pst0 [] ctx0) as (idx & cu & [n R] & X).
  - cbn. rewrite app_nil_r. auto.
  - intros _. split; auto.
  - intros N. exfalso. apply N. reflexivity.
  - cbn [pos pst0 toks super bump app length par_of Nat.add] in R, X. change (Z.of_nat 0) with 0 in *.
    set (s' := mkP (length (txt v)) (ptoks v 0 (-1) 0) None idx cu) in *.
    exists s'. split; [|reflexivity].
    destruct (json_parse_total st js (txt_cstr _ _ OK)) as (r & HR & _). unfold json_parse in *. pose proof HR as E.
    assert (R1 : run (n + 1) st js pst0 = Some (inl s')).
    { rewrite R. cbn [run]. subst s'. cbn [pos toks]. fold js. rewrite at_end. cbn [Z.eqb].
      pose proof (x_sup _ X) as XS. cbn [super toks] in XS. rewrite <- XS. reflexivity. }
    apply (run_more _ (S (length js))) in R1. apply (run_more _ (n + 1)) in HR. replace (S (length js) + (n + 1))%nat with (n + 1 + S (length js))%nat in HR by lia. rewrite R1 in HR. injection HR as <-. exact E.
Qed.

Lemma parse_cont_value : forall M st v, json_tree dp M v -> iscont v -> json_parse_value M st (txt v) = Some (RValue (canon v)).
Proof.
  intros M st v OK C. destruct (parse_cont M st v OK C) as (s & HP & HT).
  assert (exists c r, txt v = c :: r /\ (c = 91 \/ c = 123)) as (c & r & E & HC).
  { destruct v as [| | | | |[|? ?]|[|? ?]]; try contradiction; cbn [txt]; eauto. }
  unfold json_parse_value. rewrite E in *. cbn [skip_space].
  assert (isspace c = false) as -> by (destruct HC; subst c; reflexivity).
  assert (forall w d t, w = d :: t -> d <> 91 -> d <> 123 -> eqb_list (c :: r) w = false) as W.
  { intros w d t -> N1 N2. cbn [eqb_list]. destruct (c =? d) eqn:Y; [b2p; lia|reflexivity]. }
  rewrite (W s_true _ _ eq_refl), (W s_false _ _ eq_refl), (W s_null _ _ eq_refl) by lia.
  assert (isdigit (at_ (c :: r) 0) || (at_ (c :: r) 0 =? 45) = false) as -> by (destruct HC; subst c; reflexivity).
  rewrite HP, HT.
  pose proof (val_gen M (c :: r) (ptoks v 0 (-1) 0) v OK (S (length (ptoks v 0 (-1) 0))) 0%nat 0%nat (-1) [] []) as G.
  rewrite !app_nil_r in G. cbn [skipn] in G. rewrite G by (first [exact Logic.I | auto; lia]). cbn [option_map fst].
  destruct v as [| | | | |l|l]; try contradiction.
  - rewrite ptoks_arr. cbn [nth_error tsz tty]. destruct l; [reflexivity|]. unfold lenZ. cbn [length].
    destruct (_ <=? 0) eqn:Y; [b2p; lia|reflexivity].
  - rewrite ptoks_obj. cbn [nth_error tsz tty]. destruct l; [reflexivity|]. unfold lenZ. cbn [length].
    destruct (_ <=? 0) eqn:Y; [b2p; lia|reflexivity].
Qed.

Lemma parse_num : forall M st n, carried dp n -> json_parse_value M st (NumModel.num_to_json dp n) = Some (RValue (JNum n)).
Proof.
  intros M st n H. destruct (carried_text dp n H) as [NT SD]. pose proof NT as (N1 & N2 & _). specialize (SD [] Logic.I). rewrite app_nil_r in SD.
  unfold json_parse_value. destruct (NumModel.num_to_json dp n) as [|c r] eqn:E; [congruence|]. cbn in N2.
  cbn [skip_space].
  assert (isspace c = false) as ->.
  { unfold isspace. destruct (c =? 32) eqn:Y1; [b2p; lia|]. destruct (9 <=? c) eqn:Y2; [|reflexivity].
    destruct (c <=? 13) eqn:Y3; [b2p; lia|reflexivity]. }
  rewrite !num_not_word by (auto; cbn; lia).
  assert (isdigit (at_ (c :: r) 0) || (at_ (c :: r) 0 =? 45) = true) as ->.
  { unfold at_. cbn [nth]. unfold isdigit. destruct N2 as [-> |Hc]; [rewrite orb_true_r; auto|].
    assert ((48 <=? c) && (c <=? 57) = true) as -> by (apply andb_true_iff; split; apply Z.leb_le; lia). reflexivity. }
  unfold get_double. rewrite SD. reflexivity.
Qed.

(** For every tree of null, booleans, numbers that the text carries (all but -0 and subnormal ones with 17
    digits; integers in the range of Jsi_Wide and, with up to 15 digits, numbers that were read with no more
    digits), strings of characters up to U+FFFF, arrays and objects, of any nesting (within maxDepth, if that
    is set) and any width (within the array limit): JSON.stringify succeeds and JSON.parse of its output
    gives the value back.  Other numbers, characters beyond U+FFFF, and field names containing a quote or a
    backslash are refuted below. *)
Theorem stringify_parse_roundtrip : forall M maxDepth strict v,
  json_ok dp M v -> (maxDepth <= 0 \/ depth v <= maxDepth) ->
  exists t, stringify dp maxDepth 0 v = Some t /\ json_parse_value M strict t = Some (RValue v).
Proof.
  intros M md st v OK D. exists (txt v). split; [apply (stringify_txt M); auto using ok_tree; lia|].
  destruct v as [| |b|n|s|l|l].
  - inversion OK.
  - reflexivity.
  - destruct b; reflexivity.
  - cbn [txt]. apply parse_num. inversion OK; auto.
  - inversion OK as [| | |cs Hcs| |]; subst. cbn [txt]. rewrite stringify_string_is_quote. apply quote_parse_roundtrip; auto.
  - rewrite parse_cont_value by (cbn; auto using ok_tree). rewrite (canon_id M) by auto. reflexivity.
  - rewrite parse_cont_value by (cbn; auto using ok_tree). rewrite (canon_id M) by auto. reflexivity.
Qed.
(** Text in which a field name is given several times, at any depth: JSON.parse makes each name a single
    field, with the value written last (and the fields in the order of the object's tree). *)
Theorem repeated_fields_last_wins : forall M maxDepth strict v,
  json_tree dp M v -> (maxDepth <= 0 \/ depth v <= maxDepth) ->
  exists t w, stringify dp maxDepth 0 v = Some t /\ json_parse_value M strict t = Some (RValue w) /\ means v w.
Proof.
  intros M md st v OK D. exists (txt v), (canon v). split; [apply (stringify_txt M); auto; lia|].
  split; [|apply (canon_means M); auto]. destruct v as [| |b|n|s|l|l].
  - inversion OK.
  - reflexivity.
  - destruct b; reflexivity.
  - cbn [txt]. apply parse_num. inversion OK; auto.
  - inversion OK as [| | |cs Hcs| |]; subst. cbn [txt]. rewrite stringify_string_is_quote. apply quote_parse_roundtrip; auto.
  - apply parse_cont_value; cbn; auto.
  - apply parse_cont_value; cbn; auto.
Qed.
(** The double of an integer *)
Definition int_num (z : Z) : NumModel.num := NumModel.to_double (z <? 0) (Z.abs z) 1.
Lemma int_carried : forall z, -1000 <= z <= 1000 -> carried dp (int_num z).
Proof.
  intros z H. assert (G : forall z, -1000 <= z <= 1000 -> exists v, NumSpec.value (int_num z) = Some v /\ QArith_base.Qeq v (QArith_base.inject_Z z) /\
    NumSpec.double (int_num z) /\ int_num z <> SpecFloat.S754_zero true).
  { clear. intros z H.
    assert (C : forallb (fun z => match NumSpec.value (int_num z) with Some v => QArith_base.Qeq_bool v (QArith_base.inject_Z z) && match int_num z with SpecFloat.S754_finite _ m e => (2 ^ 52 <=? Zpos m) && (Zpos m <? 2 ^ 53) && (-1074 <=? e) && (e <=? 971) | SpecFloat.S754_zero b => negb b | _ => false end | None => false end)
      (map (fun i => Z.of_nat i - 1000) (seq 0 2001)) = true) by (vm_compute; reflexivity).
    rewrite forallb_forall in C. specialize (C z). rewrite in_map_iff in C.
    assert (X : exists i, Z.of_nat i - 1000 = z /\ In i (seq 0 2001)) by (exists (Z.to_nat (z + 1000)); split; [lia | apply in_seq; lia]).
    specialize (C X). destruct (NumSpec.value (int_num z)) as [v|]; [|discriminate]. exists v. split; [reflexivity|]. apply andb_true_iff in C. destruct C as [C1 C2].
    split; [apply QArith_base.Qeq_bool_iff; exact C1|]. destruct (int_num z) as [b|b| |b m e]; try discriminate.
    - destruct b; [discriminate|]. split; [exact Logic.I | discriminate].
    - split; [|discriminate]. repeat (apply andb_true_iff in C2; destruct C2 as [C2 ?]). left. b2p. lia. }
  destruct (G z H) as (v & V & E & D & N). exists v. split; [|right; left; exists z; split; [exact E | lia]].
  repeat (split; [assumption|]). destruct (Z.eq_dec z 0) as [->|Z0]; [left; exact E|]. right. rewrite E.
  apply (QArith_base.Qle_trans _ (QArith_base.inject_Z 1)); [unfold QArith_base.Qle; vm_compute; discriminate|].
  change (Qabs.Qabs (QArith_base.inject_Z z)) with (QArith_base.inject_Z (Z.abs z)). unfold QArith_base.Qle. cbn. lia.
Qed.
(* {"b":1,"a":2,"b":[{"c":3,"c":4}]} *)
Example repeated_ex : let v := JObj [([98], JNum (int_num 1)); ([97], JNum (int_num 2)); ([98], JArr [JObj [([99], JNum (int_num 3)); ([99], JNum (int_num 4))]])] in
  json_tree dp 64 v /\ means v (JObj [([97], JNum (int_num 2)); ([98], JArr [JObj [([99], JNum (int_num 4))]])]).
Proof.
  cbv zeta. assert (T : json_tree dp 64 (JObj [([98], JNum (int_num 1)); ([97], JNum (int_num 2)); ([98], JArr [JObj [([99], JNum (int_num 3)); ([99], JNum (int_num 4))]])])).
  { apply jt_obj; [repeat constructor; lia|]. constructor; [apply jt_num, int_carried; lia|].
    constructor; [apply jt_num, int_carried; lia|]. constructor; [|constructor]. cbn [snd].
    apply jt_arr; [|apply Nat.leb_le; vm_compute; reflexivity]. constructor; [|constructor].
    apply jt_obj; [repeat constructor; lia|]. constructor; [apply jt_num, int_carried; lia|].
    constructor; [apply jt_num, int_carried; lia|]. constructor. }
  split; auto. exact (canon_means 64 _ T).
Qed.
Example json_ok_ex : json_ok dp 64 (JObj [([97], JArr [JNum (int_num (-12)); JStr (text [34; 0x20ac]); JNull; JArr []]); ([98], JObj [([], JBool true)])]).
Proof.
  apply ok_obj.
  - repeat constructor; lia.
  - unfold ascending. repeat constructor; cbn; lia.
  - constructor; [|constructor; [|constructor]]; cbn [snd].
    + apply ok_arr; [|cbn; apply Nat.leb_le; vm_compute; reflexivity]. constructor; [apply ok_num, int_carried; lia|].
      constructor; [apply ok_str; repeat constructor; unfold bmp; lia|]. constructor; [apply ok_null|]. constructor; [|constructor].
      apply ok_arr; [constructor|apply Nat.leb_le; vm_compute; reflexivity].
    + apply ok_obj; [repeat constructor|unfold ascending; repeat constructor|repeat constructor].
Qed.
(** A field name with a double quote in it: the text is not JSON. *)
Theorem quote_in_key_refuted : forall M strict, exists t,
  stringify dp 0 0 (JObj [([97; 34; 98], JNum (int_num 1))]) = Some t /\
  json_parse_value M strict t <> Some (RValue (JObj [([97; 34; 98], JNum (int_num 1))])).
Proof. intros M strict. eexists. split; [vm_compute; reflexivity|]. destruct strict; vm_compute; discriminate. Qed.
(** A field whose name ends in a backslash: it eats the closing quote. *)
Theorem backslash_in_key_refuted : forall M strict, exists t,
  stringify dp 0 0 (JObj [([97; 92], JNum (int_num 1))]) = Some t /\
  json_parse_value M strict t <> Some (RValue (JObj [([97; 92], JNum (int_num 1))])).
Proof. intros M strict. eexists. split; [vm_compute; reflexivity|]. destruct strict; vm_compute; discriminate. Qed.
(** An undefined first field leaves a leading comma (the tokenizer accepts it). *)
Theorem undefined_field_comma_refuted :
  stringify dp 0 0 (JObj [([97], JUndef); ([98], JNum (int_num 1))]) = Some [123; 32; 44; 32; 34; 98; 34; 58; 49; 32; 125].
Proof. reflexivity. Qed.
(** With a depth limit, a value nested deeper is refused: the recursion is bounded. *)
Lemma stringify_deep : forall M md v, json_tree dp M v -> forall d, 0 <= d -> 0 < md -> md < d + depth v -> stringify dp md d v = None.
Proof.
  intros M md v. induction v using jval_ind'; intros OK d Hd Hm HD.
  1-5: cbn [depth] in HD; unfold stringify; destruct (Z.ltb_spec 0 md); [|lia]; destruct (Z.ltb_spec md d); [reflexivity|lia].
  - destruct ((0 <? md) && (md <? d)) eqn:X; [unfold stringify; rewrite X; reflexivity|].
    assert (d <= md) by (destruct (Z.ltb_spec 0 md); [|lia]; cbn [andb] in X; b2p; lia).
    apply ok_arr_inv in OK as [OK _]. destruct l as [|v l]; [cbn in HD; lia|]. rewrite stringify_arr, X.
    assert (G : forall l, Forall (fun v => json_tree dp M v -> forall d, 0 <= d -> 0 < md -> md < d + depth v -> stringify dp md d v = None) l ->
       Forall (json_tree dp M) l -> md < d + depth (JArr l) -> forall first, str_elems md d first l = None).
    { clear v l H OK HD X. induction l as [|v l IHl]; intros HP HO HD first; [cbn in HD; lia|].
      inversion HP; subst. inversion HO; subst. cbn [depth fold_right] in HD. cbn [depth] in IHl.
      cbn [str_elems]. fold (str_elems md d).
      destruct (Z_lt_le_dec md (d + 1 + depth v)) as [L|L].
      - rewrite H2 by (auto; lia). reflexivity.
      - rewrite IHl by (auto; lia). destruct (stringify dp md (d + 1) v); reflexivity. }
    rewrite G by auto. reflexivity.
  - destruct ((0 <? md) && (md <? d)) eqn:X; [unfold stringify; rewrite X; reflexivity|].
    assert (d <= md) by (destruct (Z.ltb_spec 0 md); [|lia]; cbn [andb] in X; b2p; lia).
    apply ok_obj_inv in OK as (_ & OK). destruct l as [|v l]; [cbn in HD; lia|]. rewrite stringify_obj, X.
    assert (G : forall l, Forall (fun kv => json_tree dp M (snd kv) -> forall d, 0 <= d -> 0 < md -> md < d + depth (snd kv) -> stringify dp md d (snd kv) = None) l ->
       Forall (fun kv => json_tree dp M (snd kv)) l -> md < d + depth (JObj l) -> forall n, str_fields md d n l = None).
    { clear v l H OK HD X. induction l as [|[k v] l IHl]; intros HP HO HD n; [cbn in HD; lia|].
      inversion HP; subst. inversion HO; subst. cbn [depth fold_right snd] in HD. cbn [depth] in IHl. cbn [snd] in *.
      cbn [str_fields]. fold (str_fields md d).
      destruct (Z_lt_le_dec md (d + 1 + depth v)) as [L|L].
      - rewrite H2 by (auto; lia). destruct v; try reflexivity. inversion H4.
      - rewrite IHl by (auto; lia). destruct (stringify dp md (d + 1) v); destruct v; reflexivity. }
    rewrite G by auto. reflexivity.
Qed.
Theorem too_deep_refused : forall M md v, json_tree dp M v -> 0 < md -> md < depth v -> stringify dp md 0 v = None.
Proof. intros. eapply stringify_deep; eauto; lia. Qed.
Example too_deep_ex : depth (JArr [JArr [JArr []]]) = 2.
Proof. reflexivity. Qed.

End Prec.

(** Numbers that are not integers: 0.1 is carried by 15 digits and by 17; -2.5e+300 too. *)
Lemma carried_ex : carried NumModel.default_dblPrec tenth /\ carried 18 tenth /\ carried 18 (SpecFloat.S754_finite true 8405941505579464 944).
Proof.
  destruct number_text_meets as (D & NR & NI & _ & _ & RD & W & SD & _).
  assert (N : normal_number tenth (QArith_base.Qmult (QArith_base.inject_Z 7205759403792794) (QArith_base.Qpower (QArith_base.inject_Z 2) (-56)))).
  { split; [reflexivity|]. split; [exact D|]. split; [discriminate|]. right. unfold QArith_base.Qle. vm_compute. discriminate. }
  split; [|split].
  - eexists. split; [exact N|]. right. right. exists [48; 46; 49]. eexists.
    split; [apply Z.leb_le; reflexivity|]. split; [exact W|]. split; [exact SD|]. split; [unfold QArith_base.Qle; vm_compute; discriminate|]. split; [vm_compute; reflexivity|]. exact RD.
  - eexists. split; [exact N|]. left. apply Z.leb_le. reflexivity.
  - eexists. split; [|left; apply Z.leb_le; reflexivity]. split; [reflexivity|]. split; [left; lia|]. split; [discriminate|]. right. unfold QArith_base.Qle. vm_compute. discriminate.
Qed.
(** With the default dblPrec, 1/3 does not survive; with any, -0 does not, and a subnormal number becomes null. *)
Theorem json_number_refuted : forall M strict,
  (let x := SpecFloat.S754_finite false 6004799503160661 (-54) in exists t, stringify NumModel.default_dblPrec 0 0 (JNum x) = Some t /\
     json_parse_value M strict t <> Some (RValue (JNum x))) /\
  (forall dp, exists t, stringify dp 0 0 (JNum (SpecFloat.S754_zero true)) = Some t /\ json_parse_value M strict t = Some (RValue (JNum (SpecFloat.S754_zero false)))) /\
  (forall dp x, NumModel.is_subnormal x = true -> exists t, stringify dp 0 0 (JNum x) = Some t /\ json_parse_value M strict t = Some (RValue JNull)).
Proof.
  intros M strict. split; [|split].
  - eexists. split; [vm_compute; reflexivity|]. destruct strict; vm_compute; discriminate.
  - intros dp. eexists. split; [reflexivity|]. destruct strict; vm_compute; reflexivity.
  - intros dp x H. exists s_null. cbn [stringify]. rewrite (proj2 (proj2 text_exceptions_refuted dp x H)). split; reflexivity.
Qed.
(** The precision: what 17 digits need *)
Corollary stringify_parse_roundtrip_17 : forall dp M maxDepth strict x v, 17 < dp -> normal_number x v ->
  exists t, stringify dp maxDepth 0 (JNum x) = Some t /\ json_parse_value M strict t = Some (RValue (JNum x)).
Proof.
  intros dp M md st x v Hp HN. destruct (Z.le_gt_cases md 0) as [L|L].
  - apply (stringify_parse_roundtrip (dp := dp) M md st (JNum x)); [|left; exact L]. apply ok_num. exists v. split; [exact HN|]. left.
    rewrite (proj1 precision_digits dp) by lia. lia.
  - apply (stringify_parse_roundtrip (dp := dp) M md st (JNum x)); [|right; cbn; lia]. apply ok_num. exists v. split; [exact HN|]. left.
    rewrite (proj1 precision_digits dp) by lia. lia.
Qed.

Print Assumptions tokenizer_total_well_nested.
Print Assumptions quoted_is_one_token.
Print Assumptions quote_parse_roundtrip.
Print Assumptions stringify_parse_roundtrip.
