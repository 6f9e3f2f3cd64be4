(** Properties C08, C09: UTF-8 and character indexing. *)
From Coq Require Import ZArith List Bool Lia.
Import ListNotations.
From Verif Require Import Bits UtfModel UtfSpec UtfProofs.
Local Open Scope Z_scope.

(** * C08 *)
Theorem utf_encode_is_utf8 : forall c, codepoint c -> unichar_to_utf c = utf8 c.
Proof. exact encode_utf8. Qed.

(** Decoding undoes encoding and consumes exactly the bytes written, whatever follows. *)
Theorem utf_decode_encode : forall c rest, codepoint c ->
  utf_to_unichar (unichar_to_utf c ++ rest) = (c, length (unichar_to_utf c)).
Proof. intros c rest H. rewrite encode_utf8 by auto. apply decode_utf8; auto. Qed.

(** Decoding character after character, as every loop over a string does. *)
Fixpoint decode_all (fuel : nat) (s : list Z) : list Z :=
  match fuel, s with
  | O, _ => [] | _, [] => []
  | S f, _ => let '(c, n) := utf_to_unichar s in c :: decode_all f (skipn n s)
  end.
Theorem utf_decode_sequence : forall cs, Forall codepoint cs ->
  forall fuel, (length cs < fuel)%nat -> decode_all fuel (flat_map unichar_to_utf cs) = cs.
Proof.
  induction cs as [|c cs IH]; intros H fuel HF; (destruct fuel as [|fuel]; [simpl in HF; lia|]); [reflexivity|].
  inversion H; subst. cbn [flat_map decode_all].
  rewrite (encode_utf8 c) by auto.
  destruct (utf8 c ++ flat_map unichar_to_utf cs) eqn:E; [destruct (utf8_nonempty _ _ E)|].
  rewrite <- E, decode_utf8, skipn_app_exact by auto. f_equal. apply IH; auto. simpl in HF; zb.
Qed.

(** * C09 *)
Lemma char_cp : forall cs, Forall character cs -> Forall codepoint cs.
Proof. intros cs. apply Forall_impl. unfold character, codepoint. intros; zb. Qed.

Lemma num_chars_text : forall cs, Forall codepoint cs ->
  num_utf_chars (text cs) (-1) = Z.of_nat (length cs) /\
  num_utf_chars (text cs) (Z.of_nat (length (text cs))) = Z.of_nat (length cs).
Proof.
  intros cs H. unfold num_utf_chars. split; [apply count_text; auto|].
  destruct (Z.of_nat (length (text cs)) =? 0) eqn:E.
  - destruct cs as [|c cs]; auto. cbn [text flat_map] in E. rewrite app_length in E.
    pose proof (utf8_length c). exfalso. apply Z.eqb_eq in E. zb.
  - destruct (Z.of_nat (length (text cs)) <? 0) eqn:E2; [zb|].
    rewrite Nat2Z.id, firstn_all. apply count_text; auto.
Qed.

Theorem string_length_counts_characters : forall cs, Forall character cs ->
  str_length (text cs) = Z.of_nat (length cs).
Proof. intros cs H. apply num_chars_text. apply char_cp; auto. Qed.

Theorem string_offset_of_index : forall cs n, Forall character cs ->
  index_to_offset (text cs) n = length (text (firstn n cs)).
Proof. intros. apply offset_text. apply char_cp; auto. Qed.

Lemma nth_skipn_hd : forall A n (l : list A) x, nth_error l n = Some x -> exists r, skipn n l = x :: r.
Proof.
  induction n; intros [|y l] x H; simpl in *; try discriminate.
  - injection H as ->; eauto.
  - auto.
Qed.

Theorem string_char_code_at : forall cs i, Forall character cs ->
  char_code_at (text cs) i = if i <? 0 then None else nth_error cs (Z.to_nat i).
Proof.
  intros cs i Hc. pose proof (char_cp cs Hc) as H. unfold char_code_at.
  destruct (num_chars_text cs H) as [-> _].
  destruct (i <? 0) eqn:E1.
  - destruct (0 <=? i) eqn:E2; [zb|]. reflexivity.
  - destruct (0 <=? i) eqn:E2; [|zb]. cbn [andb].
    destruct (i <? Z.of_nat (length cs)) eqn:E3.
    + destruct (nth_error cs (Z.to_nat i)) as [c|] eqn:E4; [|apply nth_error_None in E4; lia].
      rewrite offset_text, skipn_text by auto. destruct (nth_skipn_hd _ _ _ _ E4) as [r ->].
      cbn [text flat_map]. rewrite decode_utf8; auto.
      rewrite Forall_forall in H. apply H. eapply nth_error_In; eauto.
    + symmetry. apply nth_error_None. zb.
Qed.

Theorem string_subscript_selects_character : forall cs i, Forall character cs ->
  str_subscript (text cs) i = if i <? 0 then None else option_map utf8 (nth_error cs (Z.to_nat i)).
Proof.
  intros cs i Hc. pose proof (char_cp cs Hc) as H. unfold str_subscript.
  destruct (num_chars_text cs H) as [_ ->].
  destruct (i <? 0) eqn:E1; cbn [orb]; auto.
  destruct (Z.of_nat (length cs) <=? i) eqn:E3.
  - symmetry. replace (nth_error cs (Z.to_nat i)) with (@None Z); auto. symmetry. apply nth_error_None. zb.
  - destruct (nth_error cs (Z.to_nat i)) as [c|] eqn:E4; [|apply nth_error_None in E4; lia].
    assert (Cc : codepoint c) by (rewrite Forall_forall in H; apply H; eapply nth_error_In; eauto).
    cbn [option_map].
    destruct (Z.of_nat (length cs) =? Z.of_nat (length (text cs))) eqn:E5; cbn [negb].
    + apply Z.eqb_eq in E5. destruct (text_ascii cs H E5) as [-> A]. f_equal. unfold at_.
      rewrite (nth_error_nth _ _ _ E4). unfold utf8.
      rewrite Forall_forall in A. specialize (A c (nth_error_In _ _ E4)).
      destruct (c <? 128) eqn:E6; [auto|zb].
    + f_equal. unfold utf_get_index. rewrite at_index_text by auto.
      destruct (Nat.leb_spec (Z.to_nat i) (length cs)); [|zb].
      destruct (nth_skipn_hd _ _ _ _ E4) as [r ->]. cbn [text flat_map]. fold (text r).
      pose proof (numbytes_utf8 c (text r) Cc) as NB. unfold at_ in NB.
      destruct (utf8 c ++ text r) eqn:E7; [destruct (utf8_nonempty _ _ E7)|].
      cbn [nth] in NB. rewrite NB. destruct (Z.of_nat (length (utf8 c)) <? 0) eqn:E8; [zb|].
      rewrite Nat2Z.id, <- E7. apply firstn_app_exact.
Qed.

Lemma utf_substr_ok : forall cs k j, Forall codepoint cs -> 0 <= k -> 0 <= j ->
  match skipn (Z.to_nat k) cs with
  | [] => True
  | c :: r => c < 128 \/ Z.of_nat (length (c :: r)) <= j
  end ->
  utf_substr (text cs) (Z.of_nat (length (text cs))) k j =
  Some (text (firstn (Z.to_nat j) (skipn (Z.to_nat k) cs))).
Proof.
  intros cs k j H Hk Hj HC. unfold utf_substr, wrap_start.
  destruct (k <? 0) eqn:E1; [zb|]. cbn [andb]. destruct (0 <=? k) eqn:E2; [|zb].
  destruct (j <? 0) eqn:E3; [zb|].
  rewrite offset_text, skipn_text by auto.
  set (m := length (text (firstn (Z.to_nat k) cs))).
  assert (Ht : length (text cs) = (m + length (text (skipn (Z.to_nat k) cs)))%nat).
  { rewrite (text_split (Z.to_nat k) cs) at 1. rewrite app_length. reflexivity. }
  assert (Hat : at_ (text cs) m = at_ (text (skipn (Z.to_nat k) cs)) 0).
  { unfold at_. rewrite (text_split (Z.to_nat k) cs) at 1. rewrite app_nth2 by zb. f_equal. zb. }
  assert (HS : Forall codepoint (skipn (Z.to_nat k) cs)).
  { rewrite Forall_forall in *. intros x Hx. apply H. rewrite <- (firstn_skipn (Z.to_nat k)). apply in_or_app; auto. }
  rewrite Hat, offset_text by auto. rewrite Nat2Z.id. change (skipn m (text cs)) with (skipn (length (text (firstn (Z.to_nat k) cs))) (text cs)). rewrite skipn_text.
  destruct (skipn (Z.to_nat k) cs) as [|c r] eqn:ES.
  { cbn [text flat_map]. rewrite !firstn_nil. reflexivity. }
  f_equal. inversion HS; subst.
  set (b := text (firstn (Z.to_nat j) (c :: r))).
  assert (LB : (length b <= length (text (c :: r)))%nat).
  { unfold b. rewrite (text_split (Z.to_nat j) (c :: r)), app_length. zb. }
  replace (num_utf_bytes (at_ (text (c :: r)) 0)) with (Z.of_nat (length (utf8 c))) by (symmetry; apply numbytes_utf8; auto).
  destruct (Z.of_nat (length (utf8 c)) <? 0) eqn:E4; [zb|].
  assert (FB : firstn (length b) (text (c :: r)) = b) by (apply firstn_text).
  destruct HC as [HC|HC].
  - assert (L1 : length (utf8 c) = 1%nat) by (unfold utf8; destruct (c <? 128) eqn:E; [auto|zb]).
    rewrite L1. destruct (Z.of_nat (length (text cs)) - Z.of_nat m <? Z.of_nat (length b) + Z.of_nat 1 - 1) eqn:E5; [zb|].
    replace (Z.to_nat (Z.of_nat (length b) + Z.of_nat 1 - 1)) with (length b) by zb. auto.
  - assert (EB : b = text (c :: r)).
    { unfold b. rewrite firstn_all2; auto. zb. }
    pose proof (utf8_length c).
    destruct (Z.of_nat (length (text cs)) - Z.of_nat m <? Z.of_nat (length b) + Z.of_nat (length (utf8 c)) - 1) eqn:E5.
    + replace (Z.to_nat (Z.of_nat (length (text cs)) - Z.of_nat m)) with (length b) by (rewrite EB; zb). auto.
    + replace (Z.to_nat (Z.of_nat (length b) + Z.of_nat (length (utf8 c)) - 1)) with (length b) by (rewrite EB in *; zb). auto.
Qed.

(** charAt: right when the character is ASCII or the last one. *)
Theorem string_char_at : forall cs i, Forall character cs ->
  match (if i <? 0 then None else nth_error cs (Z.to_nat i)) with
  | None => char_at (text cs) i = Some []
  | Some c => c < 128 \/ i = Z.of_nat (length cs) - 1 -> char_at (text cs) i = Some (utf8 c)
  end.
Proof.
  intros cs i Hc. pose proof (char_cp cs Hc) as H. unfold char_at.
  destruct (num_chars_text cs H) as [-> _].
  destruct (i <? 0) eqn:E1; cbn [orb]; auto.
  destruct (nth_error cs (Z.to_nat i)) as [c|] eqn:E4.
  - assert (Z.to_nat i < length cs)%nat by (apply nth_error_Some; congruence).
    destruct (Z.of_nat (length cs) <=? i) eqn:E3; [zb|]. intros HC.
    destruct (nth_skipn_hd _ _ _ _ E4) as [r ES].
    rewrite utf_substr_ok; auto; try zb.
    + rewrite ES. change (Z.to_nat 1) with 1%nat. cbn [firstn text flat_map]. now rewrite app_nil_r.
    + rewrite ES. destruct HC as [HC|HC]; [auto|right].
      rewrite <- ES, skipn_length. zb.
  - apply nth_error_None in E4. destruct (Z.of_nat (length cs) <=? i) eqn:E3; [auto|zb].
Qed.

(** In general it is not: "éab".charAt(0) is "éa". *)
Theorem string_char_at_refuted :
  exists cs c, Forall character cs /\ nth_error cs 0 = Some c /\
    char_at (text cs) 0 = Some (utf8 c ++ [97]).
Proof. exists [233; 97; 98], 233. split; [repeat constructor; lia|]. split; vm_compute; reflexivity. Qed.

Lemma ascii_text : forall cs, Forall (fun c => c < 128) cs -> text cs = cs.
Proof.
  induction cs as [|c cs IH]; intros H; auto. inversion H; subst. cbn [text flat_map]. fold (text cs).
  rewrite IH by auto. unfold utf8. destruct (c <? 128) eqn:E; [auto|zb].
Qed.
Lemma Forall_skipn' : forall A (P : A -> Prop) n l, Forall P l -> Forall P (skipn n l).
Proof. induction n; intros [|x l] H; simpl; auto. inversion H; auto. Qed.
Lemma Forall_firstn' : forall A (P : A -> Prop) n l, Forall P l -> Forall P (firstn n l).
Proof. induction n; intros [|x l] H; simpl; auto. inversion H; auto. Qed.

(** Where a start argument points (negative: from the end). *)
Definition start_index (len start : Z) : Z := if start <? 0 then start + len else start.

Lemma substr_dup_ok : forall cs k j, - Z.of_nat (length cs) <= k -> j <> 0 ->
  (k < 0 -> cs <> []) ->
  substr_dup cs k j = Some (let r := skipn (Z.to_nat (start_index (Z.of_nat (length cs)) k)) cs in
                            if j <? 0 then r else firstn (Z.to_nat j) r).
Proof.
  intros cs k j Hk Hj Hne. unfold substr_dup, start_index.
  destruct (j =? 0) eqn:E0; [zb|].
  assert (W : wrap_start k (Z.of_nat (length cs)) = Some (if k <? 0 then k + Z.of_nat (length cs) else k)).
  { unfold wrap_start. destruct (k <? 0) eqn:E1, (0 <=? k) eqn:E2; try zb; auto.
    destruct cs as [|c cs]; [exfalso; apply Hne; auto; lia|].
    destruct (Z.of_nat (length (c :: cs)) <=? 0) eqn:E3; [cbn [length] in E3; zb|].
    f_equal. set (n := Z.of_nat (length (c :: cs))) in *.
    rewrite <- (Z_mod_plus_full k 1 n). rewrite Z.mul_1_l. apply Z.mod_small. zb. }
  rewrite W. set (st := if k <? 0 then k + Z.of_nat (length cs) else k).
  assert (0 <= st) by (unfold st; destruct (k <? 0) eqn:E; zb).
  destruct (Z.of_nat (length cs) <=? st) eqn:E1.
  { f_equal. cbv zeta. rewrite skipn_all2 by zb. destruct (j <? 0); auto. now rewrite firstn_nil. }
  cbv zeta. f_equal.
  destruct (j <? 0) eqn:E2, (0 <? j) eqn:E3; try zb.
  - destruct (Z.of_nat (length cs) - st <=? 0) eqn:E4; [zb|]. f_equal.
    rewrite firstn_all2; auto. rewrite skipn_length. zb.
  - destruct (Z.of_nat (length cs) - st <? j) eqn:E5.
    + destruct (Z.of_nat (length cs) - st <=? 0) eqn:E4; [zb|]. f_equal.
      rewrite !firstn_all2; auto; rewrite skipn_length; zb.
    + destruct (j <=? 0) eqn:E4; [zb|]. reflexivity.
Qed.

(** substr(start): from the character at [start] to the end. *)
Theorem string_substr_to_end : forall cs start, Forall character cs -> cs <> [] ->
  - Z.of_nat (length cs) <= start ->
  str_substr (text cs) start None =
  Some (text (skipn (Z.to_nat (start_index (Z.of_nat (length cs)) start)) cs)).
Proof.
  intros cs start Hc Hne Hs. pose proof (char_cp cs Hc) as H. unfold str_substr.
  destruct (num_chars_text cs H) as [HN _]. rewrite HN.
  destruct (Z.of_nat (length cs) =? Z.of_nat (length (text cs))) eqn:E5.
  - apply Z.eqb_eq in E5. destruct (text_ascii cs H E5) as [-> A].
    rewrite substr_dup_ok by (auto; zb). cbv zeta. simpl (_ <? _).
    rewrite ascii_text; auto. apply Forall_skipn'; auto.
  - unfold utf_substr. rewrite HN.
    assert (L : (0 < length cs)%nat) by (destruct cs; [congruence|simpl; lia]).
    destruct (Z.of_nat (length cs) <=? 0) eqn:E0; [zb|]. rewrite andb_false_r.
    assert (W : wrap_start start (Z.of_nat (length cs)) = Some (start_index (Z.of_nat (length cs)) start)).
    { unfold wrap_start, start_index. destruct (start <? 0) eqn:E1, (0 <=? start) eqn:E2; try zb; auto.
      rewrite E0. f_equal. set (n := Z.of_nat (length cs)) in *.
      rewrite <- (Z_mod_plus_full start 1 n). rewrite Z.mul_1_l. apply Z.mod_small. zb. }
    rewrite W. change (-1 <? 0) with true. cbv beta iota zeta. rewrite offset_text, skipn_text by auto.
    rewrite !Nat2Z.id.
    set (k := Z.to_nat (start_index (Z.of_nat (length cs)) start)).
    assert (Ht : length (text cs) = (length (text (firstn k cs)) + length (text (skipn k cs)))%nat).
    { rewrite (text_split k cs) at 1. apply app_length. }
    rewrite skipn_text. f_equal.
    destruct (_ <? _) eqn:E6; [zb|]. rewrite Nat2Z.id, firstn_all. auto.
Qed.

Lemma substr_nonneg : forall cs start n, Forall character cs -> 0 <= start ->
  match skipn (Z.to_nat start) cs with
  | [] => True
  | c :: r => c < 128 \/ Z.of_nat (length (c :: r)) <= n
  end ->
  str_substr (text cs) start (Some n) =
  Some (text (firstn (Z.to_nat n) (skipn (Z.to_nat start) cs))).
Proof.
  intros cs start n Hc Hs HC. pose proof (char_cp cs Hc) as H. unfold str_substr.
  destruct (num_chars_text cs H) as [HN _]. rewrite HN.
  destruct (n <=? 0) eqn:E0.
  { replace (Z.to_nat n) with 0%nat by zb. reflexivity. }
  destruct (Z.of_nat (length cs) =? Z.of_nat (length (text cs))) eqn:E5.
  - apply Z.eqb_eq in E5. destruct (text_ascii cs H E5) as [-> A].
    rewrite substr_dup_ok by (try (intros; congruence); zb). cbv zeta. destruct (n <? 0) eqn:E1; [zb|].
    unfold start_index. destruct (start <? 0) eqn:E2; [zb|].
    rewrite ascii_text; auto. apply Forall_firstn', Forall_skipn'; auto.
  - set (L := Z.of_nat (length (text cs))) in *.
    assert (LE : (length cs <= length (text cs))%nat).
    { clear. induction cs as [|c cs IH]; simpl; auto. rewrite app_length. pose proof (utf8_length c). zb. }
    destruct (L - start <? n) eqn:E6; [|apply utf_substr_ok; auto; lia].
    destruct (L - start <? 0) eqn:E7.
    + (* beyond the end: len is negative *)
      rewrite (skipn_all2 cs) by zb. rewrite firstn_nil.
      unfold utf_substr, wrap_start. destruct (start <? 0) eqn:E1; [zb|]. cbn [andb].
      destruct (0 <=? start) eqn:E2; [|zb]. rewrite E7.
      rewrite offset_text, skipn_text by auto. rewrite Nat2Z.id.
      rewrite (skipn_all2 cs) by zb. cbn [text flat_map length]. rewrite firstn_all2 with (l := cs) by zb.
      rewrite skipn_all. now rewrite firstn_nil.
    + rewrite utf_substr_ok; auto; try zb.
      * do 2 f_equal. rewrite !firstn_all2; auto; rewrite skipn_length; zb.
      * destruct (skipn (Z.to_nat start) cs) as [|c r] eqn:ES; auto.
        right. rewrite <- ES, skipn_length. zb.
Qed.

Lemma utf_substr_wrap : forall s b k j, num_utf_chars s (-1) > 0 -> - num_utf_chars s (-1) <= k < 0 ->
  utf_substr s b k j = utf_substr s b (k + num_utf_chars s (-1)) j.
Proof.
  intros s b k j Hn Hk. unfold utf_substr. set (N := num_utf_chars s (-1)) in *.
  destruct (N <=? 0) eqn:E; [zb|]. rewrite !andb_false_r.
  replace (wrap_start (k + N) N) with (wrap_start k N); [reflexivity|].
  unfold wrap_start. destruct (0 <=? k) eqn:E1; [zb|]. destruct (0 <=? k + N) eqn:E2; [|zb].
  rewrite E. f_equal. rewrite <- (Z_mod_plus_full k 1 N). rewrite Z.mul_1_l. apply Z.mod_small. zb.
Qed.

(** substr(start, n), a negative start counting from the end: right when the first character selected
    is ASCII, or the selection reaches the end. *)
Theorem string_substr : forall cs start n, Forall character cs -> (start < 0 -> cs <> []) ->
  - Z.of_nat (length cs) <= start ->
  let k := Z.to_nat (start_index (Z.of_nat (length cs)) start) in
  match skipn k cs with
  | [] => True
  | c :: r => c < 128 \/ Z.of_nat (length (c :: r)) <= n
  end ->
  str_substr (text cs) start (Some n) = Some (text (firstn (Z.to_nat n) (skipn k cs))).
Proof.
  intros cs start n Hc Hne Hs k HC. destruct (start <? 0) eqn:E.
  1: specialize (Hne (proj1 (Z.ltb_lt _ _) E)).
  2: { unfold k, start_index in *. rewrite E in *. apply substr_nonneg; [auto|zb|auto]. }
  assert (K : k = Z.to_nat (start + Z.of_nat (length cs))) by (unfold k, start_index; rewrite E; reflexivity).
  pose proof (char_cp cs Hc) as H. destruct (num_chars_text cs H) as [HN _].
  assert (L : (0 < length cs)%nat) by (destruct cs; [congruence|simpl; lia]).
  unfold str_substr. rewrite HN. destruct (n <=? 0) eqn:E0.
  { replace (Z.to_nat n) with 0%nat by zb. reflexivity. }
  destruct (Z.of_nat (length cs) =? Z.of_nat (length (text cs))) eqn:E5.
  - apply Z.eqb_eq in E5. destruct (text_ascii cs H E5) as [-> A].
    rewrite substr_dup_ok by (try (intros; congruence); zb). cbv zeta. destruct (n <? 0) eqn:E1; [zb|].
    rewrite ascii_text; auto. apply Forall_firstn', Forall_skipn'; auto.
  - assert (LE : (length cs <= length (text cs))%nat).
    { clear. induction cs as [|c cs IH]; simpl; auto. rewrite app_length. pose proof (utf8_length c). zb. }
    rewrite utf_substr_wrap by (rewrite HN; zb). rewrite HN.
    destruct (_ <? n) eqn:E6.
    + rewrite utf_substr_ok; auto; try zb; rewrite <- K.
      * do 2 f_equal. rewrite !firstn_all2; auto; rewrite skipn_length; zb.
      * destruct (skipn k cs) as [|c r] eqn:ES; auto. right. rewrite <- ES, skipn_length. zb.
    + rewrite utf_substr_ok; auto; try zb; rewrite <- K; auto.
Qed.

Theorem string_substr_refuted :
  exists cs, Forall character cs /\
    str_substr (text cs) 0 (Some 1) <> Some (text (firstn 1 (skipn 0 cs))).
Proof. exists [8364; 97; 98]. split; [repeat constructor; lia|]. vm_compute. discriminate. Qed.

(** "".substr(-1) does not terminate ([while (start < 0) start += 0], jsiChar.c:88). *)
Theorem empty_substr_negative_diverges_refuted : forall start, start < 0 -> str_substr [] start None = None.
Proof.
  intros start H. unfold str_substr, substr_dup, wrap_start. simpl.
  destruct (0 <=? start) eqn:E; [zb|reflexivity].
Qed.

(** * Non-vacuity: "aé€😀z" *)
Example mixed_text : Forall character [97; 233; 8364; 128512; 122] /\
  length (text [97; 233; 8364; 128512; 122]) = 11%nat /\
  str_length (text [97; 233; 8364; 128512; 122]) = 5 /\
  char_code_at (text [97; 233; 8364; 128512; 122]) 3 = Some 128512 /\
  str_substr (text [97; 233; 8364; 128512; 122]) 0 (Some 3) = Some (text [97; 233; 8364]) /\
  str_substr (text [97; 233; 8364; 128512; 122]) (-2) None = Some (text [128512; 122]).
Proof. split; [repeat constructor; lia|]. repeat split; vm_compute; reflexivity. Qed.

Print Assumptions utf_decode_encode.
Print Assumptions string_substr.
Print Assumptions string_subscript_selects_character.
