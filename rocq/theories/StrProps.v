(** Properties C23 (split and join), C24 (search), C25 (trim), C49 (case), C50 (substring, slice),
    C51 (concat, repeat), C52 (map). *)
From Coq Require Import ZArith List Bool Lia.
Import ListNotations.
From Verif Require Import Bits CodecSpec UtfModel UtfSpec UtfProofs StrModel StrSpec StrProofs StrProofs2.
From Verif Require UtfProps.
Local Open Scope Z_scope.

Lemma nonul_of : forall s, strbytes s -> nonul s.
Proof. intros s. apply Forall_impl. intros; lia. Qed.
Lemma strbytes_ok : forall s, forallb (fun b => (0 <? b) && (b <? 256)) s = true -> strbytes s.
Proof.
  intros s H. rewrite forallb_forall in H. apply Forall_forall. intros x Hx. apply H in Hx. b2p; lia.
Qed.

(** * C23 *)
(** The library function never runs out of its buffers and gives the pieces. *)
Theorem split_gives_pieces : forall s sep, strbytes s -> sep <> [] ->
  exists l, split_str s sep = Done l /\ cut (fun m => m = sep) s l.
Proof.
  intros s sep Hs Hne. unfold split_str. destruct sep as [|c sep]; [contradiction|].
  apply (split_with_ok (OnString (c :: sep)) s); [discriminate | apply nonul_of; auto].
Qed.
(** The script command: the same, unless the array would be too large (M: maxArrayList). *)
Theorem split_cmd_pieces : forall M s sep, strbytes s -> sep <> [] ->
  exists l, cut (fun m => m = sep) s l /\
    split_cmd M s (StrSep sep) = if fits M (length l) then Done l else Fail.
Proof.
  intros M s sep Hs Hne. destruct (split_gives_pieces s sep Hs Hne) as (l & H1 & H2).
  exists l. split; auto. unfold split_cmd. destruct sep; [contradiction|]. rewrite H1. reflexivity.
Qed.
(** Joining the pieces with the separator gives the string back. *)
Theorem join_split : forall M s sep l, strbytes s -> sep <> [] ->
  split_cmd M s (StrSep sep) = Done l -> join_cmd (map Some l) sep = s.
Proof.
  intros M s sep l Hs Hne H. destruct (split_cmd_pieces M s sep Hs Hne) as (l' & Hc & H').
  rewrite H' in H. destruct (fits M (length l')); [|discriminate]. injection H as ->.
  rewrite join_cmd_ok. apply cut_join; auto.
Qed.
(** No piece contains the separator. *)
Theorem split_pieces_free : forall M s sep l p, strbytes s -> sep <> [] ->
  split_cmd M s (StrSep sep) = Done l -> In p l -> ~ occurs sep p.
Proof.
  intros M s sep l p Hs Hne H Hp. destruct (split_cmd_pieces M s sep Hs Hne) as (l' & Hc & H').
  rewrite H' in H. destruct (fits M (length l')); [|discriminate]. injection H as ->.
  apply (cut_pieces (fun m => m = sep) s l Hc); auto. intros m ->; auto.
Qed.
Lemma joined_strbytes : forall c l, 0 < c < 256 -> Forall strbytes l -> strbytes (joined [c] l).
Proof.
  intros c l Hc. induction l as [|a l IH]; intros H; [constructor|].
  inversion H as [|? ? Ha Hl]; subst. destruct l; [exact Ha|].
  rewrite joined_cons by discriminate. apply Forall_app. split; auto. constructor; auto. apply IH; auto.
Qed.
(** Splitting what was joined gives the strings back, if they do not contain the separator,
    a single byte. *)
Theorem split_join : forall M l c, l <> [] -> 0 < c < 256 -> Forall strbytes l ->
  Forall (fun p => ~ In c p) l -> fits M (length l) = true ->
  split_cmd M (join_cmd (map Some l) [c]) (StrSep [c]) = Done l.
Proof.
  intros M l c Hne Hc Hl Hfree Hfit. rewrite join_cmd_ok.
  destruct (split_cmd_pieces M (joined [c] l) [c]) as (l' & Hcut & ->); [apply joined_strbytes; auto | discriminate |].
  assert (l' = l) by (apply (cut_unique [c] ltac:(discriminate) (joined [c] l)); auto; apply joined_cut; auto).
  subst. rewrite Hfit. reflexivity.
Qed.
(** The pieces of a string are determined by the statement above. *)
Theorem pieces_unique : forall sep s l l', sep <> [] ->
  cut (fun m => m = sep) s l -> cut (fun m => m = sep) s l' -> l = l'.
Proof. intros. eapply cut_unique; eauto. Qed.
(** A hole in the array leaves its separator out as well, but then the rest is not aligned: join
    is not undone by split.  [1,,2].join(",") is "1,2". *)
Theorem join_holes_refuted : join_cmd [Some [49]; None; Some [50]] [44] = [49; 44; 50].
Proof. reflexivity. Qed.
(** What join makes of an array with holes: every element that is present has the separator before it, unless it
    is at index 0. *)
Fixpoint present (l : list (option (list Z))) : list (list Z) :=
  match l with [] => [] | None :: l => present l | Some s :: l => s :: present l end.
Theorem join_with_holes : forall sep l,
  join_cmd (None :: l) sep = List.concat (map (fun s => sep ++ s) (present l)) /\
  forall x, join_cmd (Some x :: l) sep = x ++ List.concat (map (fun s => sep ++ s) (present l)).
Proof.
  intros sep l.
  assert (K : join_loop sep false l = List.concat (map (fun s => sep ++ s) (present l))).
  { induction l as [|[s|] l IH]; cbn [join_loop present map List.concat]; auto.
    rewrite IH. destruct sep; cbn [negb andb]; rewrite <- ?app_assoc; reflexivity. }
  split; [exact K|]. intros x. unfold join_cmd. cbn [join_loop negb andb]. rewrite K. reflexivity.
Qed.

Definition white_sep (m : list Z) : Prop := exists c, m = [c] /\ white c.
Lemma cut_ext : forall (P Q : list Z -> Prop) s l, (forall m, P m <-> Q m) -> cut P s l -> cut Q s l.
Proof.
  intros P Q s l H. induction 1 as [s Hn | a m r l Hm Hf Hc IH].
  - constructor. intros m Hm. apply Hn, H; auto.
  - apply cut_more; auto. + apply H; auto. + intros m' i Hm'. apply Hf, H; auto.
Qed.
(** split(null): the maximal runs without white space. *)
Theorem split_null_drops_empty : forall M s, strbytes s ->
  exists l, cut white_sep s l /\
    split_cmd M s NullSep =
    (let r := filter (fun p => match p with [] => false | _ => true end) l in
     if fits M (length r) then Done r else Fail).
Proof.
  intros M s Hs. destruct (split_with_ok OnSpace s Logic.I (nonul_of s Hs)) as (l & H1 & H2).
  exists l. split.
  - revert H2. apply cut_ext. intros m. simpl. unfold white_sep. split; intros (c & E & Hc); exists c; split; auto; apply isspace_white; auto.
  - unfold split_cmd, split_str. rewrite H1. reflexivity.
Qed.
(** split() cuts at each white space character; not "on bytes", as its help text says. *)
Theorem split_default_on_white : forall M s, strbytes s ->
  exists l, cut white_sep s l /\ split_cmd M s NoSep = if fits M (length l) then Done l else Fail.
Proof.
  intros M s Hs. destruct (split_with_ok OnSpace s Logic.I (nonul_of s Hs)) as (l & H1 & H2).
  exists l. split.
  - revert H2. apply cut_ext. intros m. simpl. unfold white_sep. split; intros (c & E & Hc); exists c; split; auto; apply isspace_white; auto.
  - unfold split_cmd, split_str. rewrite H1. reflexivity.
Qed.
Theorem split_default_on_bytes_refuted : exists s, strbytes s /\
  split_cmd 100 s NoSep <> Done (map (fun c => [c]) s).
Proof. exists [97; 98; 99]. split; [apply strbytes_ok; reflexivity | vm_compute; discriminate]. Qed.
(** split(""): the characters, for ASCII text. *)
Theorem split_empty : forall M cs, Forall (fun c => 0 < c < 128) cs -> fits M (length cs) = true ->
  split_cmd M (text cs) (StrSep []) = Done (map utf8 cs).
Proof.
  intros M cs H Hf. destruct (ascii_chars cs H) as (-> & _ & _).
  unfold split_cmd. rewrite map_length, Hf. f_equal. apply map_ext_in. intros c Hc.
  rewrite Forall_forall in H. apply H in Hc. rewrite utf8_ascii; auto; lia.
Qed.
(** In general not: it cuts characters into bytes. *)
Theorem split_empty_refuted : exists cs, Forall character cs /\
  split_cmd 100 (text cs) (StrSep []) <> Done (map utf8 cs).
Proof. exists [233]. split; [repeat constructor; unfold character; lia | vm_compute; discriminate]. Qed.

(** * C24 *)
(** The start argument: omitted or negative is 0. *)
Definition from (start : option Z) : Z := match start with None => 0 | Some i => Z.max 0 i end.
Definition found_least (s pat : list Z) (st r : Z) : Prop :=
  exists i, r = Z.of_nat i /\ st <= r /\ occurs_at pat s i /\
    forall j, occurs_at pat s j -> st <= Z.of_nat j -> (i <= j)%nat.
Definition found_greatest (s pat : list Z) (st r : Z) : Prop :=
  exists i, r = Z.of_nat i /\ st <= r /\ occurs_at pat s i /\
    forall j, occurs_at pat s j -> st <= Z.of_nat j -> (j <= i)%nat.
Definition found_none (s pat : list Z) (st r : Z) : Prop :=
  r = -1 /\ forall j, occurs_at pat s j -> ~ st <= Z.of_nat j.

Lemma from_start : forall start, (match start with None => 0 | Some i => if i <? 0 then 0 else i end) = from start.
Proof. intros [i|]; simpl; auto. destruct (i <? 0) eqn:E; zb. Qed.
Lemma from_pos : forall start, 0 <= from start.
Proof. intros [i|]; simpl; lia. Qed.

Theorem index_of_least : forall s pat start,
  found_least s pat (from start) (index_of s pat start) \/ found_none s pat (from start) (index_of s pat start).
Proof.
  intros s pat start. unfold index_of. rewrite from_start. set (st := from start).
  assert (Hst : 0 <= st) by apply from_pos. unfold strpos.
  destruct (Z.of_nat (length s) <? st) eqn:E.
  - right. split; auto. intros j Hj Hle. apply occurs_le in Hj. zb.
  - assert (Hn : (Z.to_nat st <= length s)%nat) by zb.
    destruct (strstr (skipn (Z.to_nat st) s) pat) as [k|] eqn:F.
    + left. destruct (strstr_some _ _ _ F) as [H1 H2]. exists (Z.to_nat st + k)%nat.
      split; [lia|]. split; [lia|]. split; [apply occurs_skipn; auto|].
      intros j Hj Hle. replace j with (Z.to_nat st + (j - Z.to_nat st))%nat in Hj by lia.
      apply occurs_skipn_inv in Hj. apply H2 in Hj. lia.
    + right. split; auto. intros j Hj Hle.
      replace j with (Z.to_nat st + (j - Z.to_nat st))%nat in Hj by lia.
      apply occurs_skipn_inv in Hj. exact (strstr_none _ _ F _ Hj).
Qed.

Theorem last_index_of_greatest : forall s pat start, pat <> [] ->
  found_greatest s pat (from start) (last_index_of s pat start) \/
  found_none s pat (from start) (last_index_of s pat start).
Proof.
  intros s pat start Hp. unfold last_index_of. rewrite from_start. set (st := from start).
  assert (Hst : 0 <= st) by apply from_pos. unfold strrpos.
  destruct (Z.of_nat (length s) <? st) eqn:E.
  - right. split; auto. intros j Hj Hle. apply occurs_le in Hj. zb.
  - assert (Hn : (Z.to_nat st <= length s)%nat) by zb.
    destruct (strrpos_loop_ok pat Hp (skipn (Z.to_nat st) s) st (-1)) as [(k & H1 & H2 & ->) | [H1 ->]].
    + left. exists (Z.to_nat st + k)%nat. split; [lia|]. split; [lia|]. split; [apply occurs_skipn; auto|].
      intros j Hj Hle. replace j with (Z.to_nat st + (j - Z.to_nat st))%nat in Hj by lia.
      apply occurs_skipn_inv in Hj. apply H2 in Hj. lia.
    + right. split; auto. intros j Hj Hle.
      replace j with (Z.to_nat st + (j - Z.to_nat st))%nat in Hj by lia.
      apply occurs_skipn_inv in Hj. exact (H1 _ Hj).
Qed.
(** With the empty pattern, which occurs at the end of every string, lastIndexOf misses it. *)
Theorem last_index_of_empty_refuted :
  last_index_of [97; 98] [] None = 1 /\ occurs_at [] [97; 98] 2 /\ last_index_of [] [] None = -1.
Proof. split; [reflexivity|]. split; [|reflexivity]. exists [97; 98], []. split; reflexivity. Qed.
(** The positions count bytes, not characters: "éa".indexOf("a") is 2, but "éa"[2] is undefined. *)
Theorem index_of_characters_refuted : exists cs, Forall character cs /\
  nth_error cs 1 = Some 97 /\ index_of (text cs) [97] None = 2 /\ str_subscript (text cs) 2 = None.
Proof. exists [233; 97]. split; [repeat constructor; unfold character; lia|]. repeat split. Qed.
(** On ASCII text the two agree: the character at the position found is the first of the pattern. *)
Theorem index_of_subscript : forall s c pat start, Forall (fun c => 0 < c < 128) s ->
  index_of s (c :: pat) start <> -1 -> str_subscript s (index_of s (c :: pat) start) = Some [c].
Proof.
  intros s c pat start H Hr. destruct (index_of_least s (c :: pat) start) as [(i & Hi & _ & Hocc & _) | [E _]]; [|congruence].
  rewrite Hi. destruct (ascii_chars s H) as (T & C & _).
  pose proof (UtfProps.string_subscript_selects_character s (Z.of_nat i)) as S0.
  rewrite T in S0. rewrite S0 by (revert H; apply Forall_impl; unfold character; intros; lia).
  destruct (Z.of_nat i <? 0) eqn:E; [zb|]. rewrite Nat2Z.id.
  destruct Hocc as (a & b & -> & <-). rewrite nth_error_app2, Nat.sub_diag by lia. simpl.
  rewrite utf8_ascii; auto. apply Forall_app in H. destruct H as [_ H]. inversion H; subst. lia.
Qed.
(** Jsi_Strrstr: the last occurrence, for a pattern that is not empty. *)
Theorem strrstr_greatest : forall s pat, pat <> [] ->
  (exists i, strrstr s pat = Done (Some i) /\ occurs_at pat s i /\ forall j, occurs_at pat s j -> (j <= i)%nat) \/
  (strrstr s pat = Done None /\ ~ occurs pat s).
Proof.
  intros s pat Hp. unfold strrstr.
  destruct (strrstr_loop_ok pat Hp (S (length s)) s 0 None ltac:(lia)) as [(k & H1 & H2 & ->) | [H1 ->]].
  - left. exists k. auto.
  - right. split; auto. intros (i & Hi). exact (H1 i Hi).
Qed.
(** With an empty one it reads past the end of the string. *)
Theorem strrstr_empty_refuted : forall s, strrstr s [] = Bad.
Proof.
  intros s. unfold strrstr. generalize (S (length s)). intros n. generalize O, (@None nat). revert s.
  induction n as [|n IH]; intros s off l; auto. cbn [strrstr_loop].
  assert (E : strstr s [] = Some O) by (destruct s; reflexivity).
  rewrite E. destruct s; simpl; auto.
Qed.

(** * C25 *)
Definition trim_set (t : option (list Z)) (c : Z) : Prop :=
  match t with None => In c [32; 9; 10; 13] | Some t => In c t end.
Theorem trim_both_ends : forall s t, trimmed (trim_set t) s (str_trim s t).
Proof.
  intros s t. unfold str_trim, trim_cmd. cbn [Z.testbit]. change (Z.testbit 3 0) with true. change (Z.testbit 3 1) with true.
  cbv iota. rewrite trim_left_tl. rewrite trim_right_tr.
  eapply trimmed_ext; [|apply trim_both]. intros c. cbv beta. rewrite in_bytes_iff. destruct t; reflexivity.
Qed.
Theorem trim_left_end : forall s t, trimmed_left (trim_set t) s (str_trim_left s t).
Proof.
  intros s t. unfold str_trim_left, trim_cmd. change (Z.testbit 1 0) with true. change (Z.testbit 1 1) with false.
  cbv iota. rewrite firstn_all, trim_left_tl.
  eapply trimmed_left_ext; [|apply tl_ok]. intros c. cbv beta. rewrite in_bytes_iff. destruct t; reflexivity.
Qed.
Theorem trim_right_end : forall s t, trimmed_right (trim_set t) s (str_trim_right s t).
Proof.
  intros s t. unfold str_trim_right, trim_cmd. change (Z.testbit 2 0) with false. change (Z.testbit 2 1) with true.
  cbv iota. rewrite trim_right_tr.
  eapply trimmed_right_ext; [|].
  2:{ pose proof (tr_ok (in_bytes (match t with None => [32; 9; 10; 13] | Some t => t end)) s (length s) ltac:(lia)) as H.
      rewrite firstn_all in H. exact H. }
  intros c. cbv beta. rewrite in_bytes_iff. destruct t; reflexivity.
Qed.
(** jsi_TrimStr, used on interactive and option text: C-locale white space at both ends. *)
Theorem trim_str_white : forall s, trimmed white s (trim_str s).
Proof.
  intros s. unfold trim_str. rewrite skip_white_tl, white_end_tr.
  eapply trimmed_ext; [|apply trim_both]. intros c. apply isspace_white.
Qed.
(** What trim does is determined: the statements above have one solution. *)
Theorem trimmed_unique : forall P s r r', trimmed P s r -> trimmed P s r' ->
  (exists c, In c r /\ ~ P c) -> r = r'.
Proof.
  intros P s r r' (a & b & E1 & Ha & Hb & Hl & Hr) (a' & b' & E2 & Ha' & Hb' & Hl' & Hr') (c & Hc & Hnc).
  destruct r as [|x r]; [destruct Hc|].
  assert (Hne : r' <> []).
  { intros ->. simpl in E2. assert (Hin : In c s) by (subst s; apply in_or_app; right; apply in_or_app; left; auto).
    rewrite E2 in Hin. apply in_app_or in Hin. rewrite Forall_forall in Ha', Hb'. destruct Hin; eauto. }
  assert (E3 : (x :: r) ++ b = r' ++ b').
  { apply (trimmed_left_unique P s).
    - exists a. split; auto. split; auto. intros y q Hy. injection Hy as <- _. apply (Hl x r eq_refl).
    - exists a'. split; auto. split; auto. intros y q Hy. destruct r' as [|z r']; [contradiction|].
      injection Hy as <- _. apply (Hl' z r' eq_refl). }
  assert (E4 : rev (x :: r) = rev r').
  { apply (trimmed_left_unique P (rev ((x :: r) ++ b))).
    - exists (rev b). split; [apply rev_app_distr|]. split; [apply Forall_rev; auto|].
      intros y q Hy. apply (Hr y (rev q)). rewrite <- (rev_involutive (x :: r)), Hy. reflexivity.
    - exists (rev b'). rewrite E3. split; [apply rev_app_distr|]. split; [apply Forall_rev; auto|].
      intros y q Hy. apply (Hr' y (rev q)). rewrite <- (rev_involutive r'), Hy. reflexivity. }
  rewrite <- (rev_involutive (x :: r)), E4. apply rev_involutive.
Qed.
(** A trim set is a set of bytes: trimming "é" (c3 a9) off "è" (c3 a8) cuts the character. *)
Theorem trim_characters_refuted : exists cs ts, Forall character cs /\ Forall character ts /\
  (forall c, In c cs -> ~ In c ts) /\ str_trim (text cs) (Some (text ts)) <> text cs.
Proof.
  exists [232], [233]. split; [repeat constructor; unfold character; lia|]. split; [repeat constructor; unfold character; lia|].
  split; [intros c [<- | []] [H | []]; discriminate | vm_compute; discriminate].
Qed.

(** * C49: upper and lower case *)
Theorem to_upper_case : forall cs, Forall character cs -> cs = [] \/ (exists a c, cs = a ++ [c] /\ c < 128) ->
  to_upper (text cs) = Done (text (map upper_of cs)).
Proof.
  intros cs Hc Hl. unfold to_upper. rewrite tocase_ok by (apply UtfProps.char_cp; auto).
  rewrite cased_map by (auto; lia). reflexivity.
Qed.
Theorem to_lower_case : forall cs, Forall character cs -> cs = [] \/ (exists a c, cs = a ++ [c] /\ c < 128) ->
  to_lower (text cs) = Done (text (map lower_of cs)).
Proof.
  intros cs Hc Hl. unfold to_lower. rewrite tocase_ok by (apply UtfProps.char_cp; auto).
  rewrite cased_map by (auto; lia). reflexivity.
Qed.
(** A final character that is not ASCII is lost, whatever comes before: "caffé".toUpperCase() is
    "CAFF". *)
Theorem case_drops_last_refuted : forall cs c, Forall character cs -> character c -> 128 <= c ->
  to_upper (text (cs ++ [c])) = Done (text (map upper_of cs)) /\
  to_lower (text (cs ++ [c])) = Done (text (map lower_of cs)).
Proof.
  intros cs c Hcs Hc H. unfold to_upper, to_lower.
  assert (Forall codepoint (cs ++ [c])) by (apply UtfProps.char_cp, Forall_app; split; auto).
  rewrite !tocase_ok by auto. rewrite !cased_last by (auto; lia). split; reflexivity.
Qed.
(** toTitle: the first letter upper, the others lower. *)
Theorem to_title_case : forall c cs, character c -> Forall character cs ->
  (cs = [] /\ c < 128) \/ (exists a d, cs = a ++ [d] /\ d < 128) ->
  to_title (text (c :: cs)) = Done (text (upper_of c :: map lower_of cs)).
Proof.
  intros c cs Hc Hcs Hl. unfold to_title. rewrite tocase_ok by (apply UtfProps.char_cp; constructor; auto).
  f_equal. f_equal. destruct cs as [|d cs].
  - destruct Hl as [[_ H] | (a & d & H & _)]; [|destruct a; discriminate].
    cbn [cased]. destruct (c <? 128) eqn:E; [reflexivity | zb].
  - change (cased 2 (c :: d :: cs)) with (case_of 2 c :: cased 0 (d :: cs)).
    rewrite cased_map; [reflexivity | lia |]. destruct Hl as [[H _] | H]; [discriminate | auto].
Qed.
(** Changing case twice is changing it once, and the length in characters stays. *)
Theorem case_idempotent : forall cs, Forall character cs -> cs = [] \/ (exists a c, cs = a ++ [c] /\ c < 128) ->
  forall s, to_upper (text cs) = Done s -> to_upper s = Done s /\ str_length s = str_length (text cs).
Proof.
  intros cs Hc Hl s H. rewrite to_upper_case in H by auto. injection H as <-.
  assert (Hu : Forall character (map upper_of cs)).
  { apply Forall_forall. intros x Hx. apply in_map_iff in Hx. destruct Hx as (y & <- & Hy).
    rewrite Forall_forall in Hc. apply Hc in Hy. unfold character, upper_of in *.
    destruct (97 <=? y) eqn:E1, (y <=? 122) eqn:E2; simpl; zb. }
  split.
  - rewrite to_upper_case; auto.
    + f_equal. f_equal. rewrite map_map. apply map_ext. intros c. unfold upper_of.
      destruct (97 <=? c) eqn:E1, (c <=? 122) eqn:E2; simpl; rewrite ?E1, ?E2; auto.
      destruct (97 <=? c - 32) eqn:E3, (c - 32 <=? 122) eqn:E4; simpl; auto; zb.
    + destruct Hl as [-> | (a & c & -> & H)]; [left; reflexivity|]. right.
      exists (map upper_of a), (upper_of c). rewrite map_app. split; auto.
      unfold upper_of. destruct (97 <=? c) eqn:E1, (c <=? 122) eqn:E2; simpl; zb.
  - rewrite !UtfProps.string_length_counts_characters by auto. rewrite map_length. reflexivity.
Qed.

(** * C50: substring and slice *)
(** The characters from position a (counting from 0) to position b, both included. *)
Definition range_incl (s : list Z) (a b : Z) : list Z := firstn (Z.to_nat (b - a + 1)) (skipn (Z.to_nat a) s).
(** substring(a,b) on every text, if the first character selected is ASCII or the selection reaches the end *)
Theorem substring_inclusive : forall cs a b, Forall character cs -> 0 <= a -> a <= b ->
  match skipn (Z.to_nat a) cs with
  | [] => True
  | c :: r => c < 128 \/ Z.of_nat (length (c :: r)) <= b - a + 1
  end ->
  substring_cmd (text cs) a (Some b) = Some (text (range_incl cs a b)).
Proof.
  intros cs a b Hc Ha Hab HC. pose proof (UtfProps.char_cp cs Hc) as C. destruct (UtfProps.num_chars_text cs C) as [N _].
  unfold substring_cmd, range_incl. rewrite N.
  set (e := if Z.of_nat (length cs) <? b then Z.of_nat (length cs) else b).
  destruct (e <? a) eqn:E1.
  { rewrite skipn_all2 by (unfold e in E1; destruct (Z.of_nat (length cs) <? b) eqn:E2; zb). rewrite firstn_nil. reflexivity. }
  assert (FE : firstn (Z.to_nat (e - a + 1)) (skipn (Z.to_nat a) cs) = firstn (Z.to_nat (b - a + 1)) (skipn (Z.to_nat a) cs)).
  { unfold e in *. destruct (Z.of_nat (length cs) <? b) eqn:E2; [ | reflexivity]. rewrite !firstn_all2; auto; rewrite skipn_length; zb. }
  assert (HE : e <= b) by (unfold e; destruct (Z.of_nat (length cs) <? b) eqn:E2; zb).
  destruct (Z.of_nat (length cs) =? Z.of_nat (length (text cs))) eqn:E5.
  - apply Z.eqb_eq in E5. destruct (text_ascii cs C E5) as [T A]. rewrite T.
    rewrite UtfProps.substr_dup_ok by zb. cbv zeta. destruct (e - a + 1 <? 0) eqn:E4; [zb|].
    unfold UtfProps.start_index. destruct (a <? 0) eqn:E6; [zb|]. rewrite FE.
    f_equal. symmetry. apply UtfProps.ascii_text, UtfProps.Forall_firstn', UtfProps.Forall_skipn'. exact A.
  - rewrite UtfProps.utf_substr_ok; [rewrite FE; reflexivity | exact C | exact Ha | zb | ].
    destruct (skipn (Z.to_nat a) cs) as [ | c r] eqn:ES; [exact I | ]. destruct HC as [HC | HC]; [left; exact HC | right].
    unfold e in *. destruct (Z.of_nat (length cs) <? b) eqn:E2; [ | exact HC]. rewrite <- ES, skipn_length. zb.
Qed.
(** in particular on every ASCII text *)
Corollary substring_inclusive_ascii : forall s a b, Forall (fun c => 0 < c < 128) s -> 0 <= a -> a <= b ->
  substring_cmd s a (Some b) = Some (range_incl s a b).
Proof.
  intros s a b H Ha Hab. destruct (ascii_chars s H) as (T & C & N).
  assert (HC : Forall character s) by (revert H; apply Forall_impl; intros x Hx; unfold character, codepoint; lia).
  pose proof (substring_inclusive s a b HC Ha Hab) as G. rewrite T in G. rewrite G.
  - f_equal. apply UtfProps.ascii_text. apply UtfProps.Forall_firstn', UtfProps.Forall_skipn'.
    revert H. apply Forall_impl. lia.
  - destruct (skipn (Z.to_nat a) s) as [ | c r] eqn:ES; [exact I | left].
    assert (F : Forall (fun c => 0 < c < 128) (skipn (Z.to_nat a) s)) by (apply UtfProps.Forall_skipn'; exact H).
    rewrite ES in F. inversion F; subst. lia.
Qed.
Theorem substring_empty : forall s a b, b < a ->
  substring_cmd s a (Some b) = Some [].
Proof.
  intros s a b Hab. unfold substring_cmd.
  destruct (num_utf_chars s (-1) <? b) eqn:E1.
  - destruct (num_utf_chars s (-1) <? a) eqn:E2; [reflexivity|zb].
  - destruct (b <? a) eqn:E2; [reflexivity|zb].
Qed.
(** substring(a): from a to the end, counted from the end if a is negative *)
Theorem substring_to_end : forall cs a, Forall character cs -> cs <> [] -> - Z.of_nat (length cs) <= a ->
  substring_cmd (text cs) a None = Some (text (skipn (Z.to_nat (if a <? 0 then a + Z.of_nat (length cs) else a)) cs)).
Proof. intros cs a HC HN Ha. exact (UtfProps.string_substr_to_end cs a HC HN Ha). Qed.
(** So it is not the substring of ECMAScript, whose end is excluded. *)
Theorem substring_exclusive_refuted :
  substring_cmd [97; 98; 99; 100] 1 (Some 2) <> Some (firstn 1 (skipn 1 [97; 98; 99; 100])).
Proof. vm_compute. discriminate. Qed.

(** A position as slice takes it: from the end if negative, but not before the beginning. *)
Definition from_end (n p : Z) : Z := if p <? 0 then Z.max 0 (n + p) else p.
Lemma text_longer : forall cs, (length cs <= length (text cs))%nat.
Proof. induction cs as [|c cs IH]; simpl; auto. rewrite app_length. pose proof (utf8_length c). zb. Qed.
(** slice(a): the text from a on. *)
Theorem slice_to_end : forall cs a, Forall character cs -> a < Z.of_nat (length cs) ->
  0 <= a \/ Forall (fun c => c < 128) cs ->
  slice_cmd (text cs) a None = Some (text (skipn (Z.to_nat (from_end (Z.of_nat (length cs)) a)) cs)).
Proof.
  intros cs a HC Ha HA. pose proof (UtfProps.char_cp cs HC) as C. pose proof (text_longer cs) as TL. unfold slice_cmd.
  assert (P : (if (if a <? 0 then Z.of_nat (length (text cs)) + a else a) <? 0 then 0
               else if a <? 0 then Z.of_nat (length (text cs)) + a else a) = from_end (Z.of_nat (length cs)) a).
  { unfold from_end. destruct (a <? 0) eqn:E.
    - destruct HA as [HA | HA]; [zb|]. rewrite (UtfProps.ascii_text cs HA). destruct (Z.of_nat (length cs) + a <? 0) eqn:E1; zb.
    - now rewrite E. }
  rewrite P. set (st := from_end (Z.of_nat (length cs)) a).
  destruct (Z.eq_dec (Z.of_nat (length cs)) 0) as [Z0 | N0].
  { destruct cs; [ | discriminate Z0]. subst st. unfold from_end. cbn [length] in *. rewrite Nat2Z.inj_0 in *.
    destruct (a <? 0) eqn:E; [ | zb]. replace (Z.max 0 (0 + a)) with 0 by lia. reflexivity. }
  assert (Hst : 0 <= st < Z.of_nat (length cs)) by (subst st; unfold from_end; destruct (a <? 0) eqn:E; zb).
  destruct (Z.of_nat (length (text cs)) <=? st) eqn:E2; [zb|].
  rewrite UtfProps.utf_substr_ok; [ | exact C | lia | lia | ].
  - rewrite firstn_all2; auto. rewrite skipn_length. zb.
  - destruct (skipn (Z.to_nat st) cs) as [ | c r] eqn:ES; [exact I | right]. rewrite <- ES, skipn_length. zb.
Qed.
(** slice(a, b) where a is the beginning: the text up to b, if its first character is ASCII or all of it is selected. *)
Theorem slice_prefix : forall cs a b, Forall character cs -> cs <> [] ->
  from_end (Z.of_nat (length cs)) a = 0 -> 
  (0 <= a /\ 0 <= b) \/ Forall (fun c => c < 128) cs ->
  hd 0 cs < 128 \/ Z.of_nat (length cs) <= b ->
  slice_cmd (text cs) a (Some b) = Some (text (firstn (Z.to_nat (from_end (Z.of_nat (length cs)) b)) cs)).
Proof.
  intros cs a b HC Hne H0 HA HH. pose proof (UtfProps.char_cp cs HC) as C. pose proof (text_longer cs) as TL. unfold slice_cmd.
  assert (L : 0 < Z.of_nat (length cs)) by (destruct cs; [contradiction | simpl; lia]).
  assert (P : (if (if a <? 0 then Z.of_nat (length (text cs)) + a else a) <? 0 then 0
               else if a <? 0 then Z.of_nat (length (text cs)) + a else a) = 0).
  { unfold from_end in H0. destruct (a <? 0) eqn:E.
    - destruct HA as [HA | HA]; [zb|]. rewrite (UtfProps.ascii_text cs HA). destruct (Z.of_nat (length cs) + a <? 0) eqn:E1; zb.
    - subst a. reflexivity. }
  rewrite P. destruct (Z.of_nat (length (text cs)) <=? 0) eqn:E2; [zb|].
  set (n := Z.of_nat (length cs)) in *. set (m := Z.of_nat (length (text cs))) in *.
  set (e1 := if b <? 0 then m + b else b). set (e2 := if m <=? e1 then m else e1).
  set (e := if e2 <? 0 then 0 else e2).
  assert (Q : firstn (Z.to_nat e) cs = firstn (Z.to_nat (from_end n b)) cs).
  { subst e e2 e1. unfold from_end. destruct (b <? 0) eqn:E.
    - destruct HA as [HA | HA]; [zb|]. assert (T : m = n) by (subst m n; rewrite (UtfProps.ascii_text cs HA); reflexivity).
      rewrite T in *. destruct (n <=? n + b) eqn:E3; [zb|]. destruct (n + b <? 0) eqn:E4; do 2 f_equal; zb.
    - destruct (m <=? b) eqn:E3.
      + destruct (m <? 0) eqn:E4; [zb|]. rewrite !firstn_all2; auto; subst n m; zb.
      + rewrite E. reflexivity. }
  rewrite <- Q. change (Z.to_nat 0) with 0%nat in *.
  unfold m, n. rewrite (UtfProps.utf_substr_ok cs 0 e C); [reflexivity | lia | subst e; destruct (e2 <? 0) eqn:E; zb | ].
  change (skipn (Z.to_nat 0) cs) with cs. destruct cs as [ | c r]; [contradiction | ]. destruct HH as [HH | HH]; [left; exact HH | right].
  subst e e2 e1. fold n. destruct (b <? 0) eqn:E; [zb|]. destruct (m <=? b) eqn:E3; [destruct (m <? 0) eqn:E4; subst n m; zb | rewrite E; exact HH].
Qed.
(** From another start the end is taken as a length: "abcd".slice(1,2) is "bc", not "b"; and a
    start at or after the end gives the last character, not "". *)
Theorem slice_end_refuted :
  slice_cmd [97; 98; 99; 100] 1 (Some 2) = Some [98; 99] /\ slice_cmd [97; 98; 99; 100] 7 None = Some [100].
Proof. split; reflexivity. Qed.
(** A negative position counts bytes from the end: with e-acute before z, slice(-2) is only "z". *)
Theorem slice_negative_bytes_refuted :
  Forall character [97; 233; 122] /\ slice_cmd (text [97; 233; 122]) (-2) None = Some (text [122]) /\
  text (skipn (Z.to_nat (from_end 3 (-2))) [97; 233; 122]) = text [233; 122].
Proof. repeat split; try reflexivity. repeat constructor; lia. Qed.

(** * C51: repeat and concat *)
Definition MAX_LOOP_COUNT := 10000000.
Theorem repeat_copies : forall s n, s <> [] -> 0 <= n <= MAX_LOOP_COUNT ->
  repeat_cmd MAX_LOOP_COUNT s n =
  if n * Z.of_nat (length s) <? MAX_ALLOC_BUF then Done (List.concat (repeat s (Z.to_nat n))) else Fail.
Proof.
  intros s n Hs Hn. unfold repeat_cmd.
  destruct (MAX_LOOP_COUNT <? n) eqn:E1; [zb|]. destruct (n <? 0) eqn:E2; [zb|].
  destruct (Z.of_nat (length s) <=? 0) eqn:E3; [destruct s; [contradiction | simpl in E3; zb]|]. simpl orb. cbv iota.
  destruct (n * Z.of_nat (length s) <? MAX_ALLOC_BUF) eqn:E4.
  - rewrite repeat_loop_ok; [reflexivity|]. cbn [length]. zb.
  - apply repeat_loop_fail; cbn [length]; [zb | reflexivity].
Qed.
Theorem repeat_bounds : forall s n, n < 0 \/ MAX_LOOP_COUNT < n -> repeat_cmd MAX_LOOP_COUNT s n = Fail.
Proof.
  intros s n H. unfold repeat_cmd. destruct (Z.ltb_spec MAX_LOOP_COUNT n); [reflexivity|]. destruct (Z.ltb_spec n 0); [reflexivity|]. lia.
Qed.
(** "".repeat(n) is an error, not "". *)
Theorem repeat_empty_refuted : forall n, repeat_cmd MAX_LOOP_COUNT [] n = Fail.
Proof. intros n. unfold repeat_cmd. rewrite orb_true_r. reflexivity. Qed.
Theorem concat_appends : forall s l, Z.of_nat (length s) < MAX_ALLOC_BUF ->
  concat_cmd s (map Some l) =
  if Z.of_nat (length (s ++ List.concat l)) <? MAX_ALLOC_BUF then Done (s ++ List.concat l) else Fail.
Proof. intros. apply concat_loop_ok; auto. Qed.

(** * C52: String.map *)
Theorem map_replaces : forall s pairs r, Forall (fun kv : list Z * list Z => fst kv <> []) pairs ->
  map_cmd s (full_pairs pairs) = Done r -> replaced pairs s r.
Proof.
  intros s pairs r Hp H. unfold map_cmd in H. apply map_loop_ok in H; auto.
  destruct H as (t & -> & Ht). exact Ht.
Qed.
Lemma replaced_nil : forall pairs s r, replaced pairs s r -> s = [] -> r = [].
Proof.
  intros pairs s r H E. destruct H as [| | p1 k v p2 s t E1 Hk Hno Hr]; auto; [discriminate|].
  apply app_eq_nil in E. destruct E. contradiction.
Qed.
Lemma replaced_unique : forall pairs s r r', replaced pairs s r -> replaced pairs s r' -> r = r'.
Proof.
  intros pairs s r r' H. revert r'.
  induction H as [| c s t Hno Hr IH | p1 k v p2 s t E Hk Hno Hr IH]; intros r' H'.
  - symmetry. apply (replaced_nil pairs [] r' H' eq_refl).
  - inversion H' as [| c' s' t' Hno' Hr' | p1 k v p2 s' t' E Hk Hno' Hr' E1]; subst.
    + f_equal. auto.
    + exfalso. apply (Hno k v); [apply in_or_app; right; left; auto|].
      exists [], s'. rewrite <- E1. auto.
  - inversion H' as [E1 | c' s' t' Hno' Hr' E1 | p1' k' v' p2' s' t' E' Hk' Hno' Hr' E1]; subst.
    + symmetry in E1. apply app_eq_nil in E1. destruct E1; contradiction.
    + exfalso. apply (Hno' k v); [apply in_or_app; right; left; auto|]. rewrite E1. exists [], s. auto.
    + assert (P : p1 = p1' /\ k = k' /\ v = v').
      { clear -E' Hno Hno' E1.
        assert (Ho : occurs_at k (k ++ s) 0) by (exists [], s; auto).
        assert (Ho' : occurs_at k' (k ++ s) 0) by (exists [], s'; rewrite E1; auto).
        rewrite E1 in Hno'. revert p1' E' Hno'. induction p1 as [|x p1 IH]; intros [|x' p1'] E' Hno'; simpl in E'.
        - injection E' as -> -> _. auto.
        - injection E' as <- _. exfalso. apply (Hno' k v); [left; auto | auto].
        - injection E' as -> _. exfalso. apply (Hno k' v'); [left; auto | auto].
        - injection E' as -> E'. destruct (IH ltac:(intros; apply (Hno k'0 v'0); right; auto) p1' E') as (-> & -> & ->).
          + intros k1 v1 Hin. apply (Hno' k1 v1). right; auto.
          + auto. }
      destruct P as (-> & -> & ->). f_equal. apply IH. apply app_inv_head in E1. subst s'. auto.
Qed.
(** The replacement is determined by its description. *)
Theorem map_unique : forall pairs s r r', replaced pairs s r -> replaced pairs s r' -> r = r'.
Proof. exact replaced_unique. Qed.

(** There is an answer unless the result gets too long. *)
Theorem map_answers : forall s pairs t, Forall (fun kv : list Z * list Z => fst kv <> []) pairs ->
  replaced pairs s t -> Z.of_nat (length t + 1) < MAX_ALLOC_BUF -> map_cmd s (full_pairs pairs) = Done t.
Proof.
  intros s pairs t Hp Ht Hlen. destruct (map_loop_total pairs Hp (S (length s)) s [] ltac:(lia)) as (t' & Ht' & Hd & _).
  assert (t' = t) by (eapply replaced_unique; eauto). subst. apply Hd. exact Hlen.
Qed.
Theorem map_total : forall s pairs, Forall (fun kv : list Z * list Z => fst kv <> []) pairs ->
  (exists t, replaced pairs s t) /\ map_cmd s (full_pairs pairs) <> Bad.
Proof.
  intros s pairs Hp. destruct (map_loop_total pairs Hp (S (length s)) s [] ltac:(lia)) as (t' & Ht' & _ & Hb).
  split; eauto.
Qed.

(** * Non-vacuity *)
Example split_ex : split_cmd 100 [97; 45; 45; 45; 98; 45; 45] (StrSep [45; 45]) = Done [[97]; [45; 98]; []] /\
  split_cmd 100 [32; 97; 32; 32; 98] NullSep = Done [[97]; [98]] /\
  split_cmd 100 [32; 97; 32; 32; 98] NoSep = Done [[]; [97]; []; [98]] /\
  split_cmd 100 [] (StrSep [44]) = Done [[]].
Proof. repeat split; vm_compute; reflexivity. Qed.
Example search_ex : index_of [97; 98; 97; 98; 97] [97; 98; 97] None = 0 /\ index_of [97; 98; 97; 98; 97] [97; 98; 97] (Some 1) = 2 /\
  last_index_of [97; 98; 97; 98; 97] [97; 98; 97] None = 2 /\ last_index_of [97; 98; 97; 98; 97] [99] (Some (-4)) = -1 /\
  index_of [97] [] (Some 1) = 1.
Proof. repeat split; vm_compute; reflexivity. Qed.
Example trim_ex : str_trim [32; 97; 32; 98; 9; 10] None = [97; 32; 98] /\ str_trim [32; 9] None = [] /\
  str_trim_left [120; 97; 120] (Some [120]) = [97; 120].
Proof. repeat split; vm_compute; reflexivity. Qed.
Example case_ex : to_upper (text [233; 97; 8364; 98]) = Done (text [233; 65; 8364; 66]) /\
  to_title (text [97; 66; 67]) = Done [65; 98; 99].
Proof. split; vm_compute; reflexivity. Qed.
Example map_ex : map_cmd [97; 98; 99; 97] (full_pairs [([98; 99], [120]); ([97; 98], [121; 121]); ([97], [122])]) = Done [121; 121; 99; 122].
Proof. vm_compute. reflexivity. Qed.

Print Assumptions split_join.
Print Assumptions join_split.
Print Assumptions last_index_of_greatest.
Print Assumptions trim_both_ends.
Print Assumptions map_replaces.
Print Assumptions join_with_holes.
Print Assumptions repeat_bounds.
