(** Properties C41 (name lookup), C42 (balanced brackets), C43 (numerals). *)
From Coq Require Import ZArith List Bool Lia.
Import ListNotations.
From Verif Require Import Bits UtfModel MiscModel MiscSpec MiscProofs.
Local Open Scope Z_scope.

(** * C41 *)
Lemma first_hit : forall (exact nc : bool) t key, key <> [] ->
  let hits c := hit exact nc key c in
  (Forall (fun c => ~ hits c) t /\ pass1 exact nc t key 0 (-1) = (-1, false)) \/
  (exists t1 c t2, t = t1 ++ c :: t2 /\ Forall (fun c => ~ hits c) t1 /\ hits c /\
    ((Forall (fun c => ~ hits c) t2 /\ pass1 exact nc t key 0 (-1) = (Z.of_nat (length t1), false)) \/
     (Exists hits t2 /\ pass1 exact nc t key 0 (-1) = (Z.of_nat (length t1), true)))).
Proof.
  intros exact nc t key Hk hits.
  destruct (pass1_ok exact nc key t 0 (-1) Hk ltac:(lia) ltac:(lia)) as [H _].
  destruct (H eq_refl) as [[H1 H2] | (t1 & c & t2 & -> & H1 & H2 & H3)]; [left; auto|].
  right. exists t1, c, t2. split; auto. split; auto. split; auto. rewrite !Z.add_0_l in H3. tauto.
Qed.

(** A table in which some names repeat or not; [t = t1 ++ name :: t2] says that name has index
    |t1|. *)
(** The key abbreviates (or, with exact, is) one name only: its index. *)
Theorem lookup_unique : forall (exact nc : bool) t1 name t2 key, key <> [] ->
  (if exact then names nc key name else abbreviates nc key name) ->
  Forall (fun c => ~ (if exact then names nc key c else abbreviates nc key c)) (t1 ++ t2) ->
  get_index exact nc (t1 ++ name :: t2) key = Some (Z.of_nat (length t1)).
Proof.
  intros exact nc t1 name t2 key Hk Hh Hno. apply Forall_app in Hno. destruct Hno as [N1 N2].
  unfold get_index.
  destruct (first_hit exact nc (t1 ++ name :: t2) key Hk) as [[H _] | (u1 & c & u2 & E & H1 & H2 & H3)].
  - apply Forall_app in H. destruct H as [_ H]. inversion H; subst. contradiction.
  - assert (u1 = t1 /\ c = name /\ u2 = t2) as (-> & -> & ->).
    { clear -E H1 H2 N1 N2 Hh. revert u1 E H1. induction t1 as [|x t1 IH]; intros [|y u1] E H1; simpl in E.
      - injection E as -> ->. auto.
      - injection E as -> ->. inversion H1; subst. contradiction.
      - injection E as -> <-. inversion N1; subst. contradiction.
      - injection E as -> E. inversion N1; inversion H1; subst. destruct (IH ltac:(assumption) u1 E ltac:(assumption)) as (-> & -> & ->). auto. }
    destruct H3 as [[_ ->] | [H3 _]].
    + cbn [negb]. rewrite andb_true_r. destruct (0 <=? Z.of_nat (length t1)) eqn:E0; [reflexivity | zb].
    + exfalso. apply Exists_exists in H3. destruct H3 as (x & Hx & Hx2). rewrite Forall_forall in N2. exact (N2 x Hx Hx2).
Qed.

(** No name matches: error. *)
Theorem lookup_unknown : forall (exact nc : bool) t key, key <> [] ->
  Forall (fun c => ~ (if exact then names nc key c else abbreviates nc key c)) t ->
  get_index exact nc t key = None.
Proof.
  intros exact nc t key Hk Hno. unfold get_index.
  destruct (first_hit exact nc t key Hk) as [[_ ->] | (u1 & c & u2 & -> & _ & H2 & _)].
  - change ((0 <=? -1) && negb false) with false. cbv iota.
    change (false || (-1 <=? 0)) with true. destruct exact; cbn [andb]; auto.
    destruct (pass2_ok key t 0 (-1) Hk ltac:(lia) ltac:(lia)) as [H _].
    destruct (H eq_refl) as [[-> _] | (t1 & c & t2 & -> & _ & Hc & _)]; [reflexivity|].
    exfalso. apply Forall_app in Hno. destruct Hno as [_ Hno]. inversion Hno as [|? ? Hn _]; subst. apply Hn.
    destruct nc; [|exact Hc]. destruct Hc as (r & Hr). cbn [fold] in Hr. subst c.
    exists (map lower r). cbn [fold]. apply map_app.
  - exfalso. apply Forall_app in Hno. destruct Hno as [_ Hno]. inversion Hno; subst. contradiction.
Qed.

(** Case-sensitive lookup of a name that stands in the table, where no name before it extends it:
    its (first) index, even though later names may extend it or repeat it. *)
Theorem lookup_exact_first : forall t1 t2 key, key <> [] ->
  Forall (fun c => ~ abbreviates false key c) t1 ->
  get_index false false (t1 ++ key :: t2) key = Some (Z.of_nat (length t1)).
Proof.
  intros t1 t2 key Hk N1. unfold get_index.
  assert (Hself : abbreviates false key key) by (exists []; cbn [fold]; rewrite app_nil_r; reflexivity).
  assert (SAME : forall u1 c u2, t1 ++ key :: t2 = u1 ++ c :: u2 -> Forall (fun c => ~ abbreviates false key c) u1 ->
                 abbreviates false key c -> u1 = t1 /\ c = key /\ u2 = t2).
  { clear -N1 Hself. induction t1 as [|x t1 IH]; intros [|y u1] c u2 E H1 H2; simpl in E.
    - injection E as -> ->. auto.
    - injection E as -> ->. inversion H1; subst. contradiction.
    - injection E as -> <-. inversion N1; subst. contradiction.
    - injection E as -> E. inversion N1; inversion H1; subst.
      destruct (IH ltac:(assumption) u1 c u2 E ltac:(assumption) H2) as (-> & -> & ->). auto. }
  destruct (first_hit false false (t1 ++ key :: t2) key Hk) as [[H _] | (u1 & c & u2 & E & H1 & H2 & H3)].
  { apply Forall_app in H. destruct H as [_ H]. inversion H; subst. contradiction. }
  destruct (SAME u1 c u2 E H1 H2) as (-> & -> & ->).
  destruct H3 as [[_ ->] | [_ ->]].
  - cbn [negb]. rewrite andb_true_r. destruct (0 <=? Z.of_nat (length t1)) eqn:E0; [reflexivity | zb].
  - rewrite andb_false_r. cbn [andb].
    destruct (pass2_ok key (t1 ++ key :: t2) 0 (-1) Hk ltac:(lia) ltac:(lia)) as [H _].
    destruct (H eq_refl) as [[_ H4] | (v1 & c & v2 & E2 & H4 & H5 & H6)].
    { apply Forall_app in H4. destruct H4 as [_ H4]. inversion H4; subst. contradiction. }
    destruct (SAME v1 c v2 E2 H4 H5) as (-> & -> & ->).
    destruct H6 as [[_ ->] | [[F _] | [F _]]]; try contradiction.
    rewrite Z.add_0_l. destruct (0 <=? Z.of_nat (length t1)) eqn:E0; [reflexivity | zb].
Qed.
(** Two abbreviated names, the first of them longer than the key: error. *)
Theorem lookup_ambiguous : forall t1 a t2 b t3 key, key <> [] ->
  Forall (fun c => ~ abbreviates false key c) t1 -> a <> key ->
  abbreviates false key a -> abbreviates false key b ->
  get_index false false (t1 ++ a :: t2 ++ b :: t3) key = None.
Proof.
  intros t1 a t2 b t3 key Hk N1 Ha Ha1 Hb1. unfold get_index.
  assert (SAME : forall u1 c u2, t1 ++ a :: t2 ++ b :: t3 = u1 ++ c :: u2 -> Forall (fun c => ~ abbreviates false key c) u1 ->
                 abbreviates false key c -> u1 = t1 /\ c = a /\ u2 = t2 ++ b :: t3).
  { clear -N1 Ha1. induction t1 as [|x t1 IH]; intros [|y u1] c u2 E H1 H2; simpl in E.
    - injection E as -> ->. auto.
    - injection E as -> ->. inversion H1; subst. contradiction.
    - injection E as -> <-. inversion N1; subst. contradiction.
    - injection E as -> E. inversion N1; inversion H1; subst.
      destruct (IH ltac:(assumption) u1 c u2 E ltac:(assumption) H2) as (-> & -> & ->). auto. }
  assert (Hrest : forall P : list Z -> Prop, ~ P b -> Forall P (t2 ++ b :: t3) -> False).
  { intros P HP HF. apply Forall_app in HF. destruct HF as [_ HF]. inversion HF; subst. contradiction. }
  destruct (first_hit false false (t1 ++ a :: t2 ++ b :: t3) key Hk) as [[H _] | (u1 & c & u2 & E & H1 & H2 & H3)].
  { apply Forall_app in H. destruct H as [_ H]. inversion H; subst. contradiction. }
  destruct (SAME u1 c u2 E H1 H2) as (-> & -> & ->).
  destruct H3 as [[H3 _] | [_ ->]].
  { exfalso. apply (Hrest (fun c => ~ abbreviates false key c) ltac:(intros X; exact (X Hb1)) H3). }
  rewrite andb_false_r. cbn [andb].
  destruct (pass2_ok key (t1 ++ a :: t2 ++ b :: t3) 0 (-1) Hk ltac:(lia) ltac:(lia)) as [H _].
  destruct (H eq_refl) as [[_ H4] | (v1 & c & v2 & E2 & H4 & H5 & H6)].
  { apply Forall_app in H4. destruct H4 as [_ H4]. inversion H4; subst. contradiction. }
  destruct (SAME v1 c v2 E2 H4 H5) as (-> & -> & ->).
  destruct H6 as [[F _] | [[_ [H6 _]] | [_ [_ ->]]]]; [contradiction | | reflexivity].
  exfalso. apply (Hrest (fun c => ~ abbreviates false key c) ltac:(intros X; exact (X Hb1)) H6).
Qed.
(** With the flag for exact matching and a table without duplicates: found if and only if there. *)
Theorem lookup_exact_flag : forall t key i, key <> [] -> NoDup t ->
  get_index true false t key = Some (Z.of_nat i) <-> nth_error t i = Some key.
Proof.
  intros t key i Hk Hnd. split; intros H.
  - destruct (in_dec (list_eq_dec Z.eq_dec) key t) as [Hin | Hnin].
    + apply in_split in Hin. destruct Hin as (t1 & t2 & ->).
      assert (R : get_index true false (t1 ++ key :: t2) key = Some (Z.of_nat (length t1))).
      { apply lookup_unique; auto; [reflexivity|]. apply Forall_forall. intros c Hc E. unfold names in E. cbn [fold] in E. subst c.
        apply NoDup_remove_2 in Hnd. contradiction. }
      rewrite R in H. injection H as H. apply Nat2Z.inj in H. subst i.
      rewrite nth_error_app2, Nat.sub_diag by lia. reflexivity.
    + rewrite lookup_unknown in H; [discriminate | auto |]. apply Forall_forall. intros c Hc E.
      unfold names in E. cbn [fold] in E. subst c. contradiction.
  - apply nth_error_split in H. destruct H as (t1 & t2 & -> & <-).
    apply lookup_unique; auto; [reflexivity|]. apply Forall_forall. intros c Hc E. unfold names in E. cbn [fold] in E. subst c.
    apply NoDup_remove_2 in Hnd. contradiction.
Qed.
(** A name of the table is not found when a longer one that begins with it stands before it
    ("abcd", "abc"), nor, without regard to case, when another merely starts like it. *)
Theorem lookup_exact_refuted :
  get_index false false [[97; 98; 99; 100]; [97; 98; 99]] [97; 98; 99] = None /\
  get_index false true [[70; 111; 111]; [70; 111; 111; 98]] [102; 111; 111] = None.
Proof. split; reflexivity. Qed.
(** Without regard to case, two abbreviated names are not reported if only one matches in case. *)
Theorem lookup_nocase_ambiguous_refuted :
  abbreviates true [102; 111] [70; 111; 111] /\ abbreviates true [102; 111] [102; 111; 120] /\
  get_index false true [[70; 111; 111]; [102; 111; 120]] [102; 111] = Some 1.
Proof. split; [exists [111]; reflexivity|]. split; [exists [120]; reflexivity | reflexivity]. Qed.

(** * C42 *)
(** Text with properly nested brackets: complete exactly when no bracket is open. *)
Theorem balanced_iff_closed : forall st s, open_text st s -> is_balanced s = true <-> st = [].
Proof.
  intros st s H. destruct (open_text_balance st s H) as [_ (k & Hk)].
  unfold is_balanced. specialize (Hk [] 0 0). rewrite app_nil_r in Hk. rewrite Hk. cbn [balance].
  replace (0 + 2 * k) with (k * 2) by lia. rewrite Z.mod_mul by lia. cbn [andb Z.eqb].
  rewrite Z.add_0_l. split.
  - intros E. destruct st; [auto|]. cbn [length] in E. zb.
  - intros ->. reflexivity.
Qed.
(** Brackets that do not match in kind or order, and brackets in strings, are misjudged:
    ")(" and "(]" count as complete, the string literal "(" does not. *)
Theorem balanced_refuted :
  is_balanced [41; 40] = true /\ is_balanced [40; 93] = true /\ is_balanced [34; 40; 34] = false.
Proof. repeat split; reflexivity. Qed.

(** * C43 *)
Lemma strtoll_numeral : forall base s n, 2 <= base <= 36 -> numeral base s n -> 0 <= n <= LLONG_MAX ->
  strtoll base s = n.
Proof.
  intros base s n Hb Hs Hn. unfold strtoll.
  destruct (strto_numeral base s n [] Hb Hs) as [E | (_ & x & r' & _ & E & _)]; [intros c r' E; discriminate | | discriminate].
  rewrite app_nil_r in E. rewrite E. cbv iota zeta.
  destruct (n <? LLONG_MIN) eqn:E1; [unfold LLONG_MIN in *; zb|].
  destruct (LLONG_MAX <? n) eqn:E2; [zb | reflexivity].
Qed.
Lemma numeral_no_x : forall base s n, base <= 33 -> numeral base s n -> at_ s 1 <> 120.
Proof.
  intros base s n Hb H. pose proof (numeral_digits _ _ _ H) as Hall.
  destruct s as [|a [|b s]]; try (cbn; lia). inversion Hall as [|? ? _ H2]; subst. inversion H2 as [|? ? (v & Hv & Hc) _]; subst.
  unfold at_; cbn [nth]. lia.
Qed.
Lemma parse_numeral : forall base s n, 2 <= base <= 33 -> numeral base s n -> 0 <= n <= LLONG_MAX ->
  parse_int s (Some base) = Some (Some n).
Proof.
  intros base s n Hb Hs Hn. unfold parse_int.
  destruct (Z.eqb_spec (at_ s 1) 120) as [E|_]; [exfalso; exact (numeral_no_x base s n ltac:(lia) Hs E)|].
  rewrite andb_false_r. destruct ((base <? 2) || (36 <? base)) eqn:E.
  - apply orb_true_iff in E. destruct E; zb.
  - rewrite (strtoll_numeral base s n); auto. lia.
Qed.
(** Any numeral (upper or lower case) in a base up to 33 is read correctly. *)
Theorem parse_int_numeral : forall base s n, 2 <= base <= 33 -> numeral base s n -> 0 <= n <= 2 ^ 53 ->
  parse_int s (Some base) = Some (Some n).
Proof. intros base s n Hb Hs Hn. apply parse_numeral; auto. unfold LLONG_MAX. lia. Qed.
(** In a base in which x is a digit, "0x" at the start is taken for hexadecimal. *)
Theorem parse_int_base36_refuted : exists s n, numeral 36 s n /\ parse_int s (Some 36) <> Some (Some n).
Proof.
  exists ([48; 120] ++ [49]), ((0 * 36 + 33) * 36 + 1). split.
  - apply num_more; [|split; lia]. change [48; 120] with ([48] ++ [120]).
    apply num_more; [|split; lia]. constructor. split; lia.
  - vm_compute. discriminate.
Qed.
(** Space, a sign, digits, and what follows them *)
Lemma strto_text : forall base sp sg s n r, 2 <= base <= 36 -> Forall (fun c => isspace c = true) sp -> In sg [[]; [43]; [45]] ->
  numeral base s n -> stops base r -> ~ (base = 16 /\ s = [48] /\ exists r', r = 120 :: r' \/ r = 88 :: r') ->
  strto base (sp ++ sg ++ s ++ r) = Some (match sg with [c] => c =? 45 | _ => false end, n, r).
Proof.
  intros base sp sg s n r Hb Hsp Hsg Hs Hr Hx.
  assert (SK : forall t, strto base (sp ++ t) = strto base t).
  { induction Hsp as [|c sp Hc Hsp IH]; intros t; [reflexivity|]. rewrite <- (IH t). unfold strto at 1. cbn [app skip_space]. rewrite Hc. reflexivity. }
  rewrite SK.
  destruct (strto_numeral base s n r Hb Hs Hr) as [E | (E1 & x & r' & E2 & E3 & E4)];
    [|exfalso; apply Hx; split; auto; split; auto; exists r'; destruct E4 as [-> | ->]; auto].
  cbn [In] in Hsg. destruct Hsg as [<- | Hsg]; [exact E|].
  destruct (numeral_first _ _ _ Hs) as (c & s' & v & -> & Hd).
  pose proof (digit_not_space _ _ _ Hd) as NS. assert (N1 : (c =? 45) = false /\ (c =? 43) = false) by (destruct Hd as (? & ?); split; apply Z.eqb_neq; lia).
  unfold strto in E. cbn [app skip_space] in E. rewrite NS in E. destruct N1 as [N1 N2]. rewrite N1, N2 in E.
  destruct Hsg as [<- | [<- | []]]; unfold strto; cbn [app skip_space].
  - change (isspace 43) with false. cbv iota. change (43 =? 45) with false. change (43 =? 43) with true. cbv iota. exact E.
  - change (isspace 45) with false. cbv iota. change (45 =? 45) with true. cbv iota.
    destruct (s' ++ r) as [|x [|d r0]]; [| | destruct ((c =? 48) && (base =? 16) && ((x =? 120) || (x =? 88)) && (digit_value d <? 16))];
      (match type of E with context [digit_value ?k <? base] => destruct (digit_value k <? base); [|discriminate E] end);
      (match type of E with context [digits base ?k 0] => destruct (digits base k 0) end); congruence.
Qed.
(** parseInt of a text with a base: white space, a sign, the digits of that base up to the first other character *)
Theorem parse_int_text : forall base sp sg s n r, 2 <= base <= 33 -> Forall (fun c => isspace c = true) sp -> In sg [[]; [43]; [45]] ->
  numeral base s n -> 0 <= n <= 2 ^ 53 -> stops base r -> ~ (s = [48] /\ exists r', r = 120 :: r' \/ r = 88 :: r') ->
  parse_int (sp ++ sg ++ s ++ r) (Some base) = Some (Some (match sg with [45] => - n | _ => n end)).
Proof.
  intros base sp sg s n r Hb Hsp Hsg Hs Hn Hr Hx. unfold parse_int.
  assert (N0 : (at_ (sp ++ sg ++ s ++ r) 0 =? 48) && (at_ (sp ++ sg ++ s ++ r) 1 =? 120) = false).
  { destruct ((at_ (sp ++ sg ++ s ++ r) 0 =? 48) && (at_ (sp ++ sg ++ s ++ r) 1 =? 120)) eqn:E; [exfalso|reflexivity].
    apply andb_true_iff in E. destruct E as [E1 E2]. apply Z.eqb_eq in E1, E2.
    destruct sp as [|c sp]; [|inversion Hsp; subst; cbn in E1; subst c; discriminate].
    cbn [In] in Hsg. destruct Hsg as [<- | [<- | [<- | []]]]; try (cbn in E1; lia).
    cbn [app] in E1, E2. destruct (numeral_first _ _ _ Hs) as (c & s' & v & -> & Hd). cbn in E1. subst c. cbn in E2.
    destruct s' as [|d s'].
    - cbn in E2. destruct r as [|d r]; [cbn in E2; lia|]. cbn in E2. subst d. apply Hx. split; auto. exists r. auto.
    - cbn in E2. subst d. pose proof (numeral_digits _ _ _ Hs) as Hall. inversion Hall as [|? ? _ H2]; subst. inversion H2 as [|? ? (w & Hw & H') _]; subst. lia. }
  rewrite N0. destruct (Z.ltb_spec base 2); [lia|]. destruct (Z.ltb_spec 36 base); [lia|]. cbn [orb]. do 2 f_equal.
  unfold strtoll. rewrite (strto_text base sp sg s n r) by (auto; try lia; intros (_ & A & B); apply Hx; auto).
  change (2 ^ 53) with 9007199254740992 in Hn. unfold LLONG_MIN, LLONG_MAX. cbn [In] in Hsg.
  destruct Hsg as [<- | [<- | [<- | []]]]; cbv zeta iota;
    repeat match goal with |- context [?a =? ?b] => match a with 43 => change (43 =? 45) with false | 45 => change (45 =? 45) with true end end; cbv iota;
    repeat match goal with |- context [?a <? ?b] => destruct (Z.ltb_spec a b) end; lia.
Qed.
(** and of a text that begins with 0x, whatever the base *)
Theorem parse_int_hex_prefix : forall base s n r, numeral 16 s n -> 0 <= n <= 2 ^ 53 -> stops 16 r ->
  parse_int (48 :: 120 :: s ++ r) base = Some (Some n).
Proof.
  intros base s n r Hs Hn Hr. unfold parse_int. change (at_ (48 :: 120 :: s ++ r) 0) with 48. change (at_ (48 :: 120 :: s ++ r) 1) with 120.
  change ((48 =? 48) && (120 =? 120)) with true. cbv iota. do 2 f_equal.
  destruct (numeral_first _ _ _ Hs) as (d & s' & v & -> & Hd). destruct (digit_value_is 16 d v ltac:(lia) Hd) as [_ El].
  unfold strtoll, strto. cbn [skip_space]. change (isspace 48) with false. cbv iota. change (48 =? 45) with false. change (48 =? 43) with false. cbv iota. cbn [app].
  change ((48 =? 48) && (16 =? 16) && ((120 =? 120) || (120 =? 88))) with true. cbn [andb]. rewrite El. rewrite El.
  change (d :: s' ++ r) with ((d :: s') ++ r). rewrite (digits_numeral 16 _ n ltac:(lia) Hs ltac:(lia)), digits_stop by auto. cbv iota.
  rewrite Z.mul_0_l, Z.add_0_l. change (2 ^ 53) with 9007199254740992 in Hn. unfold LLONG_MIN, LLONG_MAX.
  destruct (Z.ltb_spec n (-9223372036854775808)); [lia|]. destruct (Z.ltb_spec 9223372036854775807 n); [lia|]. reflexivity.
Qed.
Example parse_int_text_meets : parse_int [32; 43; 49; 50; 112; 120] (Some 10) = Some (Some 12) /\ parse_int [48; 120; 49; 70; 103] (Some 10) = Some (Some 31).
Proof. split; reflexivity. Qed.
(** Format and read back: radix 8, 10, 16. *)
Theorem to_string_parse_int : forall n radix, 0 <= n <= 2 ^ 53 -> In radix [8; 10; 16] ->
  exists s, number_to_string n radix = Some s /\ parse_int s (Some radix) = Some (Some n).
Proof.
  intros n radix Hn Hr. unfold number_to_string.
  assert (P : forall b, 2 <= b <= 33 -> parse_int (print_u b n) (Some b) = Some (Some n)).
  { intros b Hb. apply parse_numeral; auto; [apply print_u_numeral; unfold two64; lia | unfold LLONG_MAX; lia]. }
  assert (M : n mod two64 = n) by (apply Z.mod_small; unfold two64; lia).
  cbn [In] in Hr. destruct Hr as [<- | [<- | [<- | []]]].
  - exists (print_u 8 n). split; [cbn -[print_u two64]; rewrite M; reflexivity | apply P; lia].
  - exists (print_d n). split; [reflexivity|]. unfold print_d. destruct (n <? 0) eqn:E; [zb|]. apply P; lia.
  - exists (print_u 16 n). split; [cbn -[print_u two64]; rewrite M; reflexivity | apply P; lia].
Qed.
(** Decimal also for negative numbers. *)
Theorem decimal_round_trip : forall n, - 2 ^ 53 <= n <= 2 ^ 53 ->
  exists s, number_to_string n 10 = Some s /\ parse_int s (Some 10) = Some (Some n).
Proof.
  intros n Hn. destruct (n <? 0) eqn:E.
  2:{ apply to_string_parse_int; [zb | simpl; tauto]. }
  exists (45 :: print_u 10 (- n)). split; [unfold number_to_string, print_d; rewrite E; reflexivity|].
  assert (Hs : numeral 10 (print_u 10 (- n)) (- n)) by (apply print_u_numeral; unfold two64; zb).
  unfold parse_int. change (at_ (45 :: print_u 10 (- n)) 0) with 45. cbn [Z.eqb andb].
  change ((10 <? 2) || (36 <? 10)) with false. cbv iota. do 2 f_equal. unfold strtoll.
  destruct (strto_numeral 10 _ _ [] ltac:(lia) Hs) as [X | (X & _)]; [intros c r' Y; discriminate | | discriminate].
  rewrite app_nil_r in X.
  assert (Y : strto 10 (45 :: print_u 10 (- n)) = Some (true, - n, [])).
  { unfold strto in X |- *. cbn [skip_space]. change (isspace 45) with false. cbv iota. change (45 =? 45) with true. cbv iota.
    destruct (numeral_first _ _ _ Hs) as (c & s' & v & Es & Hd). rewrite Es in *.
    cbn [skip_space] in X. rewrite (digit_not_space 10 c v Hd) in X.
    assert (c <> 45 /\ c <> 43) as [N1 N2] by (destruct Hd as (? & ?); lia).
    destruct (Z.eqb_spec c 45); [contradiction|]. destruct (Z.eqb_spec c 43); [contradiction|].
    cbn [Z.eqb andb] in X |- *.
    repeat match goal with
    | |- context [match ?l with _ :: _ => _ | [] => _ end] => idtac
    end.
    rewrite !andb_false_r in *. cbn [andb] in *.
    destruct s' as [|x [|d r]]; cbn [andb] in *; rewrite ?andb_false_r in *; cbn [andb] in *;
      destruct (digit_value c <? 10); try discriminate;
      match type of X with context [digits ?b ?l ?a] => destruct (digits b l a) end; injection X as -> ->; reflexivity. }
  rewrite Y. cbv iota zeta. rewrite Z.opp_involutive.
  destruct (n <? LLONG_MIN) eqn:E1; [unfold LLONG_MIN in *; zb|].
  destruct (LLONG_MAX <? n) eqn:E2; [unfold LLONG_MAX in *; zb | reflexivity].
Qed.
(** In other radixes the number is printed in decimal, and negative numbers print as their two's
    complement, which does not read back. *)
Theorem to_string_radix_refuted :
  number_to_string 5 2 = Some [53] /\
  (exists s, number_to_string (-1) 16 = Some s /\ parse_int s (Some 16) = Some (Some LLONG_MAX)).
Proof. split; [reflexivity|]. eexists. split; reflexivity. Qed.
(** Without a base a leading zero means octal: parseInt("010") is 8, parseInt("09") is 0. *)
Theorem parse_int_octal_refuted : parse_int [48; 49; 48] None = Some (Some 8) /\ parse_int [48; 57] None = Some (Some 0).
Proof. split; reflexivity. Qed.

(** Option values (Jsi_GetWide): decimal, 0x, 0o and 0b numerals with a sign. *)
Definition prefix_of (base : Z) : list Z :=
  if base =? 16 then [48; 120] else if base =? 8 then [48; 111] else if base =? 2 then [48; 98] else [].
Lemma wrap_id : forall v, LLONG_MIN <= v <= LLONG_MAX -> wrap 64 v = v.
Proof.
  intros v H. unfold LLONG_MIN, LLONG_MAX in H. unfold wrap. change (2 ^ 64) with two64. unfold two64.
  change (18446744073709551616 / 2) with 9223372036854775808.
  destruct (Z.lt_ge_cases v 0) as [Hlt|Hge].
  - replace (v mod 18446744073709551616) with (v + 18446744073709551616).
    + destruct (_ <? _) eqn:E; zb.
    + apply (Z.mod_unique _ _ (-1)); lia.
  - rewrite Z.mod_small by lia. destruct (_ <? _) eqn:E; zb.
Qed.
Theorem get_wide_prefixed : forall base s n sign, In base [2; 8; 16] -> numeral base s n -> 0 <= n <= LLONG_MAX ->
  In sign [1; -1] ->
  get_wide ((if sign =? 1 then [] else [45]) ++ prefix_of base ++ s) = Some (Some (sign * n)).
Proof.
  intros base s n sign Hb Hs Hn Hsg.
  destruct (numeral_first _ _ _ Hs) as (c & s' & v & Es & Hd).
  assert (Hcs : c <> 45 /\ c <> 43 /\ isspace c = false).
  { split; [destruct Hd; lia|]. split; [destruct Hd; lia|]. eapply digit_not_space; eauto. }
  destruct Hcs as (C1 & C2 & C3).
  assert (Hbb : 2 <= base <= 36) by (cbn [In] in Hb; lia).
  assert (Hx : forall x r', ~ (@nil Z = x :: r')) by discriminate.
  assert (T : strtoull base s = (n, Some [])).
  { unfold strtoull. destruct (strto_numeral base s n [] Hbb Hs) as [E | (_ & x & r' & _ & E & _)];
      [intros c0 r' E; discriminate | | discriminate].
    rewrite app_nil_r in E. rewrite E. destruct (two64 <=? n) eqn:E2; [unfold two64, LLONG_MAX in *; zb | reflexivity]. }
  set (str := (if sign =? 1 then [] else [45]) ++ prefix_of base ++ s).
  assert (NB : exists k, number_base str = (k, base, sign) /\ (k <= length str)%nat /\ skipn k str = s /\ str <> []).
  { exists (length str - length s)%nat. unfold str. subst s.
    assert (P : forall u : list Z, (length (u ++ c :: s') - length (c :: s'))%nat = length u) by (intros u; rewrite app_length; lia).
    rewrite app_assoc, P. split; [|split; [rewrite (app_length _ (c :: s')); lia | split; [rewrite skipn_app, skipn_all, Nat.sub_diag; reflexivity | destruct ((if sign =? 1 then [] else [45]) ++ prefix_of base); discriminate]]].
    cbn [In] in Hb, Hsg. destruct Hb as [<- | [<- | [<- | []]]], Hsg as [<- | [<- | []]];
      unfold prefix_of; cbn [Z.eqb app Pos.eqb length];
      unfold number_base; cbn [skip_space length];
      repeat match goal with |- context [isspace (Zpos ?z)] => change (isspace (Zpos z)) with false end; cbv iota;
      rewrite ?Nat.sub_diag; unfold at_; cbn [nth Z.eqb Pos.eqb negb orb];
      cbn [nth length]; rewrite ?Nat.sub_diag; cbn [nth Z.eqb Pos.eqb negb orb]; destruct (Z.eqb_spec c 45); try contradiction; destruct (Z.eqb_spec c 43); try contradiction;
      rewrite C3; reflexivity. }
  destruct NB as (k & NB & L & SK & NE).
  unfold get_wide, jsi_strtoull. rewrite NB.
  destruct (Z.eqb_spec base 10) as [E|_]; [cbn [In] in Hb; lia|]. cbn [negb].
  destruct (length str <? k)%nat eqn:E; [apply Nat.ltb_lt in E; lia|].
  rewrite SK, T. unfold check_conversion. destruct str; [contradiction|]. cbn [forallb].
  rewrite (wrap_id n) by (unfold LLONG_MIN, LLONG_MAX in *; lia).
  do 2 f_equal. rewrite wrap_id; [lia|]. cbn [In] in Hsg. unfold LLONG_MIN, LLONG_MAX in *. lia.
Qed.
(** Decimal numbers for options (Jsi_GetWide, Jsi_GetInt): white space, a sign, digits, white space.
    Anything else behind the digits is an error. *)
Lemma wrap32_id : forall v, - 2 ^ 31 <= v < 2 ^ 31 -> wrap 32 v = v.
Proof.
  intros v H. unfold wrap. change (2 ^ 31) with 2147483648 in H. change (2 ^ 32) with 4294967296.
  change (4294967296 / 2) with 2147483648.
  destruct (Z.lt_ge_cases v 0) as [Hlt|Hge].
  - replace (v mod 4294967296) with (v + 4294967296) by (apply (Z.mod_unique _ _ (-1)); lia).
    destruct (_ <? _) eqn:E; zb.
  - rewrite Z.mod_small by lia. destruct (_ <? _) eqn:E; zb.
Qed.
Lemma strtoull_decimal : forall sp sg s n r, Forall (fun c => isspace c = true) sp -> In sg [[]; [43]; [45]] ->
  numeral 10 s n -> 0 <= n <= LLONG_MAX -> stops 10 r -> ~ (s = [48] /\ exists c r', r = c :: r' /\ In c [120; 88; 111; 79; 98; 66]) ->
  jsi_strtoull (sp ++ sg ++ s ++ r) = Some (match sg with [45] => - n | _ => n end, Some r).
Proof.
  intros sp sg s n r Hsp Hsg Hs Hn Hr Hx.
  destruct (numeral_first _ _ _ Hs) as (c & s' & v & Es & Hd).
  assert (C : c <> 45 /\ c <> 43) by (destruct Hd as (? & ?); lia).
  assert (NB : exists sign, number_base (sp ++ sg ++ s ++ r) = (O, 10, sign)).
  { unfold number_base.
    assert (SK : forall t, skip_space (sp ++ t) = skip_space t).
    { clear - Hsp. induction Hsp as [|a sp Ha Hsp IH]; intros t; [reflexivity|]. cbn [app skip_space]. rewrite Ha. apply IH. }
    rewrite SK.
    assert (SK2 : skip_space (sg ++ s ++ r) = sg ++ s ++ r).
    { rewrite Es. cbn [In] in Hsg. destruct Hsg as [<- | [<- | [<- | []]]]; cbn [app skip_space]; auto. rewrite (digit_not_space _ _ _ Hd). reflexivity. }
    rewrite SK2. replace (length (sp ++ sg ++ s ++ r) - length (sg ++ s ++ r))%nat with (length sp) by (rewrite (app_length sp); lia).
    assert (AT : forall k t, at_ (sp ++ t) (length sp + k) = at_ t k).
    { intros k t. unfold at_. rewrite app_nth2 by lia. f_equal. lia. }
    assert (Q : (at_ (sp ++ sg ++ s ++ r) (length sp) =? 45) = (match sg with [a] => a =? 45 | _ => false end) /\
                (at_ (sp ++ sg ++ s ++ r) (length sp) =? 43) = (match sg with [a] => a =? 43 | _ => false end)).
    { replace (at_ (sp ++ sg ++ s ++ r) (length sp)) with (at_ (sg ++ s ++ r) 0) by (rewrite <- AT; f_equal; lia).
      rewrite Es. cbn [In] in Hsg. destruct Hsg as [<- | [<- | [<- | []]]]; cbn; auto. split; apply Z.eqb_neq; tauto. }
    destruct Q as [-> ->].
    assert (TAIL : forall i, i = (length sp + length sg)%nat -> forall sign : Z, exists sign',
      (if negb (at_ (sp ++ sg ++ s ++ r) i =? 48) then (O, 10, sign)
       else let x := at_ (sp ++ sg ++ s ++ r) (S i) in
         let base := if (x =? 120) || (x =? 88) then 16 else if (x =? 111) || (x =? 79) then 8
                     else if (x =? 98) || (x =? 66) then 2 else 10 in
         if base =? 10 then (O, 10, sign)
         else let i := S (S i) in
           if negb (at_ (sp ++ sg ++ s ++ r) i =? 45) && negb (at_ (sp ++ sg ++ s ++ r) i =? 43) && negb (isspace (at_ (sp ++ sg ++ s ++ r) i)) then (i, base, sign)
           else (10%nat, base, sign)) = (O, 10, sign')).
    { intros i Ei sign. exists sign.
      assert (AT2 : forall k, at_ (sp ++ sg ++ s ++ r) (i + k) = at_ (s ++ r) k).
      { intros k. subst i. rewrite <- Nat.add_assoc, AT. unfold at_. rewrite app_nth2 by lia. f_equal. lia. }
      replace (at_ (sp ++ sg ++ s ++ r) i) with (at_ (s ++ r) 0) by (rewrite <- AT2; f_equal; lia).
      replace (at_ (sp ++ sg ++ s ++ r) (S i)) with (at_ (s ++ r) 1) by (rewrite <- AT2; f_equal; lia).
      rewrite Es. cbn [app]. change (at_ (c :: s' ++ r) 0) with c. change (at_ (c :: s' ++ r) 1) with (at_ (s' ++ r) 0).
      destruct (Z.eqb_spec c 48) as [->|_]; [cbn [negb]|reflexivity].
      assert (X : ~ In (at_ (s' ++ r) 0) [120; 88; 111; 79; 98; 66]).
      { destruct s' as [|d s'].
        - cbn [app]. destruct r as [|d r]; [cbn; lia|]. intros Y. apply Hx. split; auto. exists d, r. auto.
        - cbn [app]. change (at_ (d :: s' ++ r) 0) with d. pose proof (numeral_digits _ _ _ Hs) as Hall. rewrite Es in Hall.
          inversion Hall as [|? ? _ H2]; subst. inversion H2 as [|? ? (w & Hw & H') _]; subst. cbn [In]. lia. }
      cbn [In] in X. set (x := at_ (s' ++ r) 0) in *. cbv zeta.
      repeat match goal with |- context [x =? ?k] => destruct (Z.eqb_spec x k); [exfalso; lia|] end. reflexivity. }
    cbn [In] in Hsg. destruct Hsg as [<- | [<- | [<- | []]]].
    - apply TAIL. cbn [length]. lia.
    - change (43 =? 45) with false. change (43 =? 43) with true. cbv iota. apply TAIL. cbn [length]. lia.
    - change (45 =? 45) with true. cbv iota. apply TAIL. cbn [length]. lia. }
  destruct NB as (sign & NB). unfold jsi_strtoull. rewrite NB. cbn [Z.eqb negb Pos.eqb].
  unfold strtoull. rewrite (strto_text 10 sp sg s n r) by (auto; try lia; intros (Y & _); lia).
  assert (T : (two64 <=? n) = false) by (unfold two64, LLONG_MAX in *; apply Z.leb_gt; lia). rewrite T.
  assert (W : wrap 64 ((- n) mod two64) = - n).
  { unfold wrap. change (2 ^ 64) with two64. rewrite Z.mod_mod by (unfold two64; lia). apply wrap_id. unfold LLONG_MIN, LLONG_MAX in *. lia. }
  assert (W2 : wrap 64 n = n) by (apply wrap_id; unfold LLONG_MIN, LLONG_MAX in *; lia).
  cbn [In] in Hsg. destruct Hsg as [<- | [<- | [<- | []]]]; [| change (43 =? 45) with false | change (45 =? 45) with true]; cbv iota; congruence.
Qed.
Theorem get_number_decimal : forall sp sg s n r, Forall (fun c => isspace c = true) sp -> In sg [[]; [43]; [45]] ->
  numeral 10 s n -> stops 10 r -> ~ (s = [48] /\ exists c r', r = c :: r' /\ In c [120; 88; 111; 79; 98; 66]) ->
  (Forall (fun c => isspace c = true) r ->
     (0 <= n < 2 ^ 63 -> get_wide (sp ++ sg ++ s ++ r) = Some (Some (match sg with [45] => - n | _ => n end))) /\
     (0 <= n < 2 ^ 31 -> get_int (sp ++ sg ++ s ++ r) = Some (Some (match sg with [45] => - n | _ => n end)))) /\
  (Exists (fun c => isspace c = false) r -> 0 <= n < 2 ^ 63 ->
     get_wide (sp ++ sg ++ s ++ r) = Some None /\ get_int (sp ++ sg ++ s ++ r) = Some None).
Proof.
  intros sp sg s n r Hsp Hsg Hs Hr Hx. change (2 ^ 63) with 9223372036854775808. change (2 ^ 31) with 2147483648.
  pose proof (strtoull_decimal sp sg s n r Hsp Hsg Hs) as D.
  assert (NE : exists a l, sp ++ sg ++ s ++ r = a :: l).
  { destruct (numeral_first _ _ _ Hs) as (c & s' & v & -> & _). destruct sp; [destruct sg|]; cbn [app]; eauto. }
  destruct NE as (a & l & NE). unfold LLONG_MAX in D.
  assert (CK : check_conversion (sp ++ sg ++ s ++ r) (Some r) = forallb isspace r) by (rewrite NE; reflexivity).
  split.
  - intros Hb. assert (F : forallb isspace r = true) by (apply forallb_forall; apply Forall_forall; exact Hb).
    split; intros Hn; unfold get_wide, get_int; rewrite D by (auto; lia); rewrite CK, F; [reflexivity|].
    do 2 f_equal. apply wrap32_id. change (2 ^ 31) with 2147483648. cbn [In] in Hsg. destruct Hsg as [<- | [<- | [<- | []]]]; lia.
  - intros He Hn.
    assert (F : forallb isspace r = false).
    { apply Exists_exists in He. destruct He as (c & Hin & Hc). destruct (forallb isspace r) eqn:E; [|reflexivity].
      rewrite forallb_forall in E. rewrite (E c Hin) in Hc. discriminate. }
    split; unfold get_wide, get_int; rewrite D by (auto; lia); rewrite CK, F; reflexivity.
Qed.
Example get_number_meets : get_int [32; 45; 52; 50; 32] = Some (Some (-42)) /\ get_int [55; 48; 48; 48; 48] = Some (Some 70000) /\ get_int [52; 50; 120] = Some None.
Proof. repeat split; reflexivity. Qed.
(** After 0x, 0o, 0b a sign or blank makes the parser continue at offset 10: behind the end of a
    short string, in the middle of a long one ("0x-23456789" is 9). *)
Theorem get_wide_offset_refuted :
  get_wide [48; 120; 45; 53] = None /\
  get_wide [48; 120; 45; 50; 51; 52; 53; 54; 55; 56; 57] = Some (Some 9).
Proof. split; reflexivity. Qed.
(** An int that is too large is accepted and cut: "4294967297" is 1. *)
Theorem get_int_range_refuted : get_int [52; 50; 57; 52; 57; 54; 55; 50; 57; 55] = Some (Some 1).
Proof. reflexivity. Qed.

(** Booleans: a non-empty abbreviation of true or false in any case, nothing else. *)
Theorem get_bool_abbreviations : forall s,
  (get_bool s = Some true <-> s <> [] /\ abbreviates true s [116; 114; 117; 101]) /\
  (get_bool s = Some false <-> s <> [] /\ abbreviates true s [102; 97; 108; 115; 101]).
Proof.
  intros s. unfold get_bool, abbreviates. rewrite !fold_map. cbn [ff].
  change lower with tolower in *.
  destruct s as [|c s]; [split; split; [discriminate | intros [H _]; contradiction | discriminate | intros [H _]; contradiction]|].
  destruct (starts tolower [116; 114; 117; 101] (c :: s)) eqn:E1.
  - split; split; intros H; try discriminate; auto.
    + split; [discriminate|]. apply starts_iff in E1. exact E1.
    + destruct H as [_ H]. apply starts_iff in E1. destruct E1 as (r & E1), H as (r' & H).
      cbn [map app] in E1, H. injection E1 as E1 _. injection H as H _. rewrite <- E1 in H. discriminate.
  - assert (N1 : ~ exists r, map tolower [116; 114; 117; 101] = map tolower (c :: s) ++ r) by (intros H; apply starts_iff in H; congruence).
    destruct (starts tolower [102; 97; 108; 115; 101] (c :: s)) eqn:E2.
    + apply starts_iff in E2. split; split; intros H; try discriminate; auto; [destruct H; contradiction | split; [discriminate | auto]].
    + assert (N2 : ~ exists r, map tolower [102; 97; 108; 115; 101] = map tolower (c :: s) ++ r) by (intros H; apply starts_iff in H; congruence).
      split; split; intros H; try discriminate; destruct H; contradiction.
Qed.

(** * Non-vacuity *)
Example lookup_ex : get_index false false [[97; 98]; [97; 99; 100]; [97; 99]] [97; 99; 100] = Some 1 /\
  get_index false false [[97; 98]; [97; 99; 100]; [98]] [97; 99] = Some 1 /\
  get_index false false [[97; 98]; [97; 98; 99]] [97; 98] = Some 0 /\
  get_index false false [[97; 98]; [97; 99]] [97] = None.
Proof. repeat split; reflexivity. Qed.
(** f(a, "x y"[1] *)
Example open_ex : open_text [41] ([102] ++ [40] ++ [97] ++ [34; 120; 34] ++ [91] ++ [49] ++ [93]).
Proof.
  assert (H : open_text [41] (((((([] ++ [102]) ++ [40]) ++ [97]) ++ 34 :: [120] ++ [34]) ++ [91]) ++ [49] ++ [93])).
  { rewrite app_assoc. apply (ot_close [41] _ 93). apply ot_plain; [|unfold special; simpl; lia].
    apply ot_open with (d := 93); [|reflexivity]. apply ot_quoted; [|simpl; auto | repeat constructor; unfold special; simpl; lia].
    apply ot_plain; [|unfold special; simpl; lia]. apply ot_open with (d := 41); [|reflexivity].
    apply ot_plain; [constructor | unfold special; simpl; lia]. }
  exact H.
Qed.
Example numbers_ex : number_to_string 255 16 = Some [102; 102] /\ parse_int [102; 102] (Some 16) = Some (Some 255) /\
  get_wide [45; 48; 98; 49; 48; 49] = Some (Some (-5)) /\ get_wide [32; 52; 50; 32] = Some (Some 42).
Proof. repeat split; reflexivity. Qed.

Print Assumptions lookup_exact_first.
Print Assumptions balanced_iff_closed.
Print Assumptions decimal_round_trip.
Print Assumptions get_wide_prefixed.
Print Assumptions parse_int_text.
Print Assumptions parse_int_hex_prefix.
Print Assumptions get_number_decimal.
