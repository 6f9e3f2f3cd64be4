(** Theorems about glob matching (C22). *)
From Coq Require Import ZArith List Bool Lia.
Import ListNotations.
From Verif Require Import Bits UtfModel UtfSpec UtfProofs GlobModel GlobSpec GlobProofs.
Local Open Scope Z_scope.

(** Leading stars dropped. *)
Fixpoint strip (ps : list Z) : list Z := match ps with x :: r => if x =? 42 then strip r else ps | [] => [] end.
Lemma strip_chars : forall ps, Forall character ps -> Forall character (strip ps).
Proof. induction ps as [|x r IH]; intros F; auto. cbn [strip]. inversion F; subst. destruct (x =? 42); auto. Qed.
Lemma strip_length : forall ps, (length (strip ps) <= length ps)%nat.
Proof. induction ps as [|x r IH]; auto. cbn [strip length]. destruct (x =? 42); cbn [length]; lia. Qed.
Lemma strip_head : forall ps, hd 0 (strip ps) <> 42.
Proof. induction ps as [|x r IH]; [discriminate|]. cbn [strip]. destruct (x =? 42) eqn:E; auto. apply Z.eqb_neq in E. auto. Qed.
Lemma drop_stars_T : forall ps, Forall character ps -> drop_stars (T ps) = T (strip ps).
Proof.
  induction ps as [|x r IH]; intros F; [reflexivity|]. inversion F; subst. destruct (T_first x r H1) as (b & rb & E & K).
  rewrite E. cbn [drop_stars strip]. rewrite K by lia. destruct (x =? 42) eqn:EX; auto.
  apply Z.eqb_eq in EX. subst x. pose proof (T_tail 42 r ltac:(lia)) as TT. rewrite E in TT. cbn [skipn] in TT. rewrite TT. auto.
Qed.
Lemma skip_stars_T : forall ps, Forall character ps -> skipn 1 (skip_stars (T (42 :: ps))) = T (strip ps).
Proof.
  induction ps as [|x r IH]; intros F; [reflexivity|]. inversion F; subst. destruct (T_first x r H1) as (b & rb & E & K).
  rewrite T_cons. change (utf8 42) with [42]. cbn [app]. cbn [skip_stars]. rewrite E. rewrite K by lia. cbn [strip].
  destruct (x =? 42) eqn:EX.
  - apply Z.eqb_eq in EX. subst x. rewrite <- E. auto.
  - rewrite E; reflexivity.
Qed.

Section G.
Variable nocase : bool.
Notation matches := (matches nocase).

Lemma star_iff : forall p s, matches (42 :: p) s <-> exists s1 s2, s = s1 ++ s2 /\ matches p s2.
Proof.
  intros p s. split.
  - intros H. inversion H; subst; eauto; unfold STAR, OPEN, QUERY, BACKSLASH in *; try discriminate; try congruence.
  - intros (s1 & s2 & -> & H). apply m_star. auto.
Qed.
Lemma strip_iff : forall ps s, matches (42 :: ps) s <-> exists s1 s2, s = s1 ++ s2 /\ matches (strip ps) s2.
Proof.
  induction ps as [|x r IH]; intros s; [apply star_iff|]. cbn [strip]. destruct (x =? 42) eqn:E; [|apply star_iff].
  apply Z.eqb_eq in E. subst x. rewrite star_iff. split.
  - intros (s1 & s2 & -> & H). apply IH in H. destruct H as (s3 & s4 & -> & H). exists (s1 ++ s3), s4. now rewrite app_assoc.
  - intros (s1 & s2 & -> & H). exists [], (s1 ++ s2). split; auto. apply IH. eauto.
Qed.
Lemma nil_iff : forall ps, matches ps [] <-> strip ps = [].
Proof.
  induction ps as [|x r IH]; [split; auto; intros; constructor|]. cbn [strip]. split.
  - intros H. inversion H; subst.
    match goal with A : _ ++ _ = [] |- _ => apply app_eq_nil in A; destruct A; subst end. cbn. apply IH. auto.
  - destruct (x =? 42) eqn:E; [|discriminate]. apply Z.eqb_eq in E. subst x. intros H. apply star_iff. exists [], []. rewrite IH. auto.
Qed.
Lemma nonstar_nonempty : forall ps s, ps <> [] -> hd 0 ps <> 42 -> matches ps s -> s <> [].
Proof. intros ps s H1 H2 H3 ->. inversion H3; subst; auto. Qed.

Lemma at_end_ok : forall ps cs, Forall character ps -> Forall character cs ->
  at_end (T ps) (T cs) = Done (match ps, cs with [], [] => true | _, _ => false end).
Proof.
  intros [|x r] cs F G; cbn [at_end].
  - change (T []) with [0]. cbn [at_end Z.eqb]. destruct cs as [|c cs]; [reflexivity|]. inversion G; subst.
    destruct (T_first c cs H1) as (b & rb & -> & K). rewrite K by lia. unfold character in H1.
    replace (c =? 0) with false; auto. symmetry. apply Z.eqb_neq. lia.
  - inversion F; subst. destruct (T_first x r H1) as (b & rb & -> & K). cbn [at_end]. rewrite K by lia. unfold character in H1.
    replace (x =? 0) with false; auto. symmetry. apply Z.eqb_neq. lia.
Qed.

Definition decides (o : out bool) (P : Prop) : Prop := exists b, o = Done b /\ (b = true <-> P).

Lemma next_ok : forall x ps cs k, character x -> Forall character ps -> Forall character cs ->
  (cs <> [] -> decides (k (T ps) (T cs)) (matches ps cs)) -> decides (next nocase (T (x :: ps)) (T cs) k) (matches ps cs).
Proof.
  intros x ps cs k X F G H. unfold next. rewrite case_ok by auto. cbn [snd]. rewrite T_skip.
  destruct cs as [|c cs].
  - change (T []) with [0] at 1. cbn [Z.eqb]. rewrite drop_stars_T by auto. change [0] with (T []). rewrite at_end_ok by (auto using strip_chars).
    eexists. split; [reflexivity|]. rewrite nil_iff. destruct (strip ps); split; auto; discriminate.
  - inversion G; subst. destruct (T_first c cs H2) as (b & rb & E & K). rewrite E at 1. rewrite K by lia. unfold character in H2.
    replace (c =? 0) with false by (symmetry; apply Z.eqb_neq; lia). rewrite E. rewrite <- E. apply H. discriminate.
Qed.

Lemma star_loop_ok : forall f ps, (forall cs, cs <> [] -> Forall character cs -> (nocase = true -> Forall (fun c => c < 256) cs) -> decides (f (T cs)) (matches ps cs)) ->
  forall cs, Forall character cs -> (nocase = true -> Forall (fun c => c < 256) cs) -> forall fuel, (length cs < fuel)%nat ->
  decides (star_loop fuel f (T cs)) (exists s1 s2, cs = s1 ++ s2 /\ s2 <> [] /\ matches ps s2).
Proof.
  intros f ps HF. induction cs as [|c cs IH]; intros G B fuel HU; destruct fuel as [|fuel]; cbn [length] in HU; try lia; cbn [star_loop].
  - change (T []) with [0]. cbn [Z.eqb]. exists false. split; auto. split; [discriminate|]. intros (s1 & s2 & E & N & _).
    symmetry in E. apply app_eq_nil in E. tauto.
  - inversion G; subst. destruct (T_first c cs H1) as (b & rb & E & K). rewrite E at 1. rewrite K by lia. pose proof H1 as CC. unfold character in CC.
    replace (c =? 0) with false by (symmetry; apply Z.eqb_neq; lia).
    destruct (HF (c :: cs)) as (r & R1 & R2); auto; [discriminate|]. rewrite R1. destruct r.
    + exists true. split; auto. split; auto. intros _. exists [], (c :: cs). split; auto. split; [discriminate|]. tauto.
    + rewrite T_decode by auto. cbn [snd]. rewrite T_skip.
      destruct (IH H2) with (fuel := fuel) as (b2 & Q1 & Q2); [intros N; specialize (B N); inversion B; auto|lia|].
      exists b2. split; auto. rewrite Q2. split.
      * intros (s1 & s2 & -> & N & M). exists (c :: s1), s2. auto.
      * intros (s1 & s2 & D & N & M). destruct s1 as [|a s1].
        -- cbn [app] in D. subst s2. apply R2 in M. discriminate.
        -- cbn [app] in D. injection D as <- D. eauto.
Qed.

Lemma skipn_T0 : forall cs, (1 <= length (T cs))%nat.
Proof. intros. unfold T. rewrite app_length. cbn [length]. lia. Qed.
Lemma text_length : forall cs, (length cs <= length (text cs))%nat.
Proof.
  induction cs as [|c cs IH]; [cbn; lia|]. unfold text in *. cbn [flat_map length]. rewrite app_length.
  pose proof (utf8_length c). lia.
Qed.
Lemma T_length : forall cs, (length cs < length (T cs))%nat.
Proof. intros. unfold T. rewrite app_length. cbn [length]. pose proof (text_length cs). lia. Qed.

Lemma glob_ok : forall n ps cs fuel, (length ps <= n)%nat -> (n < fuel)%nat -> Forall character ps -> Forall character cs ->
  (nocase = true -> Forall (fun c => c < 256) cs) -> (cs = [] -> hd 0 ps <> 63) ->
  decides (glob fuel nocase (T ps) (T cs)) (matches ps cs).
Proof.
  induction n as [n IH] using lt_wf_ind. intros ps cs fuel HL HU F G B Q. destruct fuel as [|fuel]; [lia|].
  destruct ps as [|x r].
  - change (T []) with [0]. cbn [glob Z.eqb]. change [0] with (T []). rewrite at_end_ok by auto. eexists. split; [reflexivity|].
    split; [destruct cs; [constructor|discriminate]|]. intros H. inversion H. auto.
  - inversion F as [|? ? X F']; subst. destruct (T_first x r X) as (b & rb & E & K). cbn [glob]. rewrite E at 1. rewrite !K by lia.
    pose proof X as XX. unfold character in XX. replace (x =? 0) with false by (symmetry; apply Z.eqb_neq; lia).
    cbn [length] in HL.
    assert (IHr : forall r' cs', (length r' <= length r)%nat -> Forall character r' -> Forall character cs' -> cs' <> [] ->
              (nocase = true -> Forall (fun c => c < 256) cs') -> decides (glob fuel nocase (T r') (T cs')) (matches r' cs')).
    { intros r' cs' L1 F1 G1 N1 B1. apply (IH (length r')); auto; try lia. }
    destruct (x =? 42) eqn:E42.
    { apply Z.eqb_eq in E42. subst x. rewrite skip_stars_T by auto.
      destruct (strip r) as [|y r'] eqn:SR.
      - change (T []) with [0]. cbn [Z.eqb]. exists true. split; auto. split; auto. intros _. apply strip_iff. rewrite SR.
        exists cs, []. rewrite app_nil_r. split; auto. constructor.
      - assert (FY : Forall character (y :: r')) by (rewrite <- SR; now apply strip_chars). inversion FY as [|? ? Y FR]; subst.
        destruct (T_first y r' Y) as (by_ & rby & EY & KY). rewrite EY at 1. rewrite KY by lia. pose proof Y as YY. unfold character in YY.
        replace (y =? 0) with false by (symmetry; apply Z.eqb_neq; lia).
        destruct (star_loop_ok (glob fuel nocase (T (y :: r'))) (y :: r')) with (cs := cs) (fuel := S (length (T cs))) as (b2 & Q1 & Q2); auto.
        { intros cs' N1 G1 B1. apply IHr; auto. rewrite <- SR. apply strip_length. }
        { pose proof (T_length cs). lia. }
        exists b2. split; auto. rewrite Q2, strip_iff, SR. split.
        + intros (s1 & s2 & D & N & M). eauto.
        + intros (s1 & s2 & D & M). exists s1, s2. split; auto. split; auto. eapply nonstar_nonempty; [| |exact M]; [discriminate|].
          rewrite <- SR. apply strip_head. }
    destruct (x =? 63) eqn:E63.
    { apply Z.eqb_eq in E63. subst x. destruct cs as [|c cs]; [exfalso; apply Q; auto|]. inversion G as [|? ? C G']; subst.
      rewrite T_decode by auto. cbn [snd]. rewrite T_skip.
      assert (B' : nocase = true -> Forall (fun c => c < 256) cs) by (intros N; specialize (B N); inversion B; auto).
      destruct (next_ok 63 r cs (glob fuel nocase)) as (b2 & Q1 & Q2); auto.
      exists b2. split; auto. rewrite Q2. split; [apply m_any|]. intros H. inversion H; subst; auto; unfold STAR, OPEN, QUERY, BACKSLASH in *; congruence. }
    assert (NX : x <> STAR /\ x <> QUERY) by (apply Z.eqb_neq in E42; apply Z.eqb_neq in E63; auto).
    destruct NX as [NX1 NX2].
    destruct (x =? 91) eqn:E91.
    { apply Z.eqb_eq in E91. subst x. pose proof (T_tail 91 r ltac:(lia)) as TT. rewrite E in TT. cbn [skipn] in TT. subst rb.
      assert (MS : forall cs, matches (91 :: r) cs <-> exists c cs', cs = c :: cs' /\ in_set nocase c (fst (set_parse r)) /\ matches (tl (snd (set_parse r))) cs').
      { intros cs0. split.
        - intros H. inversion H; subst; unfold STAR, OPEN, QUERY, BACKSLASH in *; try congruence.
          match goal with S : set_text _ _ _ |- _ => apply set_text_parse in S; destruct S as [<- <-] end. eauto 6.
        - intros (c & cs' & -> & I & M). eapply m_set; [|exact I|exact M]. eapply set_parse_text. reflexivity. }
      destruct (set_parse_rest (length r) r) as (RR & RL & RF & RC); auto.
      pose proof (T_length r) as TL.
      assert (CH : forall c m fuel', (length r < fuel')%nat -> charset_loop fuel' nocase (T r) c m = _) by
        (intros c m fuel' Hf; exact (charset_ok nocase c (length r) r m fuel' (le_n _) F' Hf)).
      destruct cs as [|c cs].
      + change (T []) with [0]. change (utf_to_unichar [0]) with (0, 1%nat). cbn beta iota.
        assert (CM : charset_match (S (length (T r))) nocase (T r) 0 = Done None).
        { assert (NI : existsb (in_range nocase 0) (fst (set_parse r)) = false).
          { apply not_true_iff_false. intros H. apply existsb_exists in H. destruct H as ([u v] & H1 & H2).
            rewrite Forall_forall in RC. apply RC in H1. cbn [fst snd] in H1. destruct H1 as [U W].
            pose proof (fold_pos nocase u U). pose proof (fold_pos nocase v W). unfold in_range in H2. cbn [fst snd] in H2. b2p. lia. }
          unfold charset_match. change (255 <? 0) with false. change (upper 0) with 0. rewrite CH by lia. cbn [orb]. rewrite NI. destruct nocase; auto. }
        rewrite CM. exists false. split; auto. split; [discriminate|]. rewrite MS. intros (c & cs' & D & _). discriminate.
      + inversion G as [|? ? C G']; subst. rewrite T_decode by auto.
        assert (CM : charset_match (S (length (T r))) nocase (T r) c = Done (if existsb (in_range nocase (fold nocase c)) (fst (set_parse r)) then Some (T (snd (set_parse r))) else None)).
        { unfold charset_match. destruct nocase.
          - assert (L : c < 256) by (specialize (B eq_refl); inversion B; auto). replace (255 <? c) with false by (symmetry; zb).
            change (upper c) with (fold true c). rewrite CH by lia. reflexivity.
          - rewrite CH by lia. reflexivity. }
        assert (IS : existsb (in_range nocase (fold nocase c)) (fst (set_parse r)) = true <-> in_set nocase c (fst (set_parse r))).
        { rewrite existsb_exists. unfold in_set. split.
          - intros ([u v] & H1 & H2). exists u, v. split; auto. unfold in_range in H2. cbn [fst snd] in H2. b2p. lia.
          - intros (u & v & H1 & H2). exists (u, v). split; auto. unfold in_range. cbn [fst snd]. apply orb_true_iff. rewrite !andb_true_iff, !Z.leb_le. lia. }
        rewrite CM. rewrite T_skip. destruct (existsb (in_range nocase (fold nocase c)) (fst (set_parse r))) eqn:EX.
        * assert (I : in_set nocase c (fst (set_parse r))) by (apply IS; auto).
          assert (MS' : matches (91 :: r) (c :: cs) <-> matches (tl (snd (set_parse r))) cs).
          { rewrite MS. split; [intros (c' & cs' & D & _ & M); injection D as <- <-; auto|eauto 6]. }
          destruct RR as [RR|(p & RR)]; rewrite RR in *.
          -- change (T []) with [0] at 1. cbn [Z.eqb]. rewrite at_end_ok by auto. eexists. split; [reflexivity|].
             rewrite MS'. cbn [tl]. destruct cs; split; auto; try discriminate; [constructor|intros H; inversion H].
          -- inversion RF as [|? ? R1 R2]; subst. destruct (T_first 93 p R1) as (b3 & rb3 & E3 & K3). rewrite E3 at 1. rewrite K3 by lia.
             cbn [Z.eqb]. cbn [length] in RL.
             assert (B' : nocase = true -> Forall (fun c => c < 256) cs) by (intros N; specialize (B N); inversion B; auto).
             destruct (next_ok 93 p cs (glob fuel nocase)) as (b2 & Q1 & Q2); auto.
             { intros N. apply IHr; auto. lia. }
             exists b2. split; auto. rewrite Q2, MS'. reflexivity.
        * exists false. split; auto. split; [discriminate|]. rewrite MS. intros (c' & cs' & D & I & _). injection D as <- <-. apply IS in I. congruence. }
    assert (NX3 : x <> OPEN) by (apply Z.eqb_neq in E91; auto).
    (* the literal characters *)
    assert (LIT : forall y q, character y -> Forall character q -> (length q <= length r)%nat ->
      (forall c cs', matches (x :: r) (c :: cs') <-> fold nocase y = fold nocase c /\ matches q cs') ->
      decides (let '(c, l) := utf_case nocase (T cs) in
               let '(pc, _) := utf_case nocase (T (y :: q)) in
               if pc =? c then next nocase (T (y :: q)) (skipn l (T cs)) (glob fuel nocase) else Done false) (matches (x :: r) cs)).
    { intros y q CY FQ LQ HM. rewrite (case_ok nocase y) by auto. destruct cs as [|c cs].
      - assert (U0 : utf_case nocase (T []) = (0, 1%nat)) by (destruct nocase; reflexivity). rewrite U0.
        pose proof (fold_pos nocase y CY). replace (fold nocase y =? 0) with false by (symmetry; apply Z.eqb_neq; lia).
        exists false. split; auto. split; [discriminate|]. intros M. apply nil_iff in M. cbn [strip] in M. rewrite E42 in M. discriminate.
      - inversion G as [|? ? C G']; subst. rewrite case_ok by auto. rewrite T_skip. destruct (fold nocase y =? fold nocase c) eqn:EF.
        + apply Z.eqb_eq in EF. assert (B' : nocase = true -> Forall (fun c => c < 256) cs) by (intros N; specialize (B N); inversion B; auto).
          destruct (next_ok y q cs (glob fuel nocase)) as (b2 & Q1 & Q2); auto. exists b2. split; auto. rewrite Q2, HM. tauto.
        + apply Z.eqb_neq in EF. exists false. split; auto. split; [discriminate|]. rewrite HM. tauto. }
    destruct (x =? 92) eqn:E92.
    + apply Z.eqb_eq in E92. subst x. rewrite T_second by (auto; lia). destruct r as [|y q]; cbn [andb negb].
      * apply (LIT 92 []); auto. intros c cs'. split.
        -- intros H. inversion H; subst; unfold STAR, OPEN, QUERY, BACKSLASH in *; try congruence. auto.
        -- intros [H1 H2]. apply m_char; auto; discriminate.
      * rewrite T_tail by lia. inversion F' as [|? ? Y F2]; subst. cbn [length]. apply (LIT y q); auto; [cbn [length]; lia|].
        intros c cs'. split.
        -- intros H. inversion H; subst; unfold STAR, OPEN, QUERY, BACKSLASH in *; try congruence; auto.
           match goal with A : 92 = 92 -> _ |- _ => specialize (A eq_refl); discriminate end.
        -- intros [H1 H2]. apply m_quote; auto.
    + cbn [andb]. apply (LIT x r); auto. intros c cs'. apply Z.eqb_neq in E92. split.
      * intros H. inversion H; subst; unfold STAR, OPEN, QUERY, BACKSLASH in *; try congruence; auto.
      * intros [H1 H2]. apply m_char; auto; try (unfold BACKSLASH; congruence).
Qed.
End G.

(** Jsi_GlobMatch terminates, reads nothing past the end of either string, and answers whether the
    string is in the language of the pattern: for every pattern and string of characters -- except
    a pattern that starts with '?' applied to the empty string, and (for the case-insensitive
    form, which calls toupper) provided the string's characters are below 256. *)
Theorem glob_matches_language : forall nocase ps cs, Forall character ps -> Forall character cs ->
  (nocase = true -> Forall (fun c => c < 256) cs) -> (cs = [] -> hd 0 ps <> QUERY) ->
  forall fuel, (length ps < fuel)%nat ->
  exists b, glob_match fuel (text ps) (text cs) nocase = Done b /\ (b = true <-> matches nocase ps cs).
Proof. intros nocase ps cs F G B Q fuel HU. unfold glob_match. apply (glob_ok nocase (length ps)); auto. Qed.

(** A pattern that starts with '?' on the empty string reads past the terminating NUL. *)
Theorem glob_query_empty_refuted : forall nocase ps fuel, Forall character ps ->
  glob_match (S fuel) (text (QUERY :: ps)) [] nocase = Bad.
Proof. reflexivity. Qed.
(** Without regard to case, a set applied to a character above 255 is undefined behaviour. *)
Theorem glob_nocase_wide_refuted : forall fuel, glob_match (S fuel) (text [OPEN; 97; CLOSE]) (text [0x20ac]) true = Bad.
Proof. reflexivity. Qed.

(** The language: a closed description of it that does not mention the relation, for patterns of
    stars and other literal characters only. *)
Corollary glob_star_suffix : forall ps cs fuel, Forall character ps -> Forall character cs ->
  Forall (fun x => x <> STAR /\ x <> QUERY /\ x <> OPEN /\ x <> BACKSLASH) ps -> (length ps + 1 < fuel)%nat ->
  (glob_match fuel (text (STAR :: ps)) (text cs) false = Done true <-> exists s, cs = s ++ ps).
Proof.
  intros ps cs fuel F G N HU.
  destruct (glob_matches_language false (STAR :: ps) cs) with (fuel := fuel) as (b & E & I); auto; try discriminate.
  { constructor; auto. unfold character, STAR. lia. } { cbn [length]. lia. }
  assert (LIT : forall ps cs, Forall (fun x => x <> STAR /\ x <> QUERY /\ x <> OPEN /\ x <> BACKSLASH) ps -> (matches false ps cs <-> cs = ps)).
  { induction ps0 as [|x ps0 IH]; intros cs0 N0; [split; [intros H; inversion H; auto|intros ->; constructor]|].
    inversion N0 as [|? ? (A1 & A2 & A3 & A4) A5]; subst. split.
    - intros H. inversion H; subst; unfold STAR, OPEN, QUERY, BACKSLASH in *; try congruence. cbn [fold] in *. f_equal; auto. apply IH; auto.
    - intros ->. apply m_char; auto; try congruence. apply IH; auto. }
  rewrite E. split.
  - intros D. injection D as ->. assert (M : matches false (STAR :: ps) cs) by (apply I; auto). apply star_iff in M.
    destruct M as (s1 & s2 & -> & M). apply LIT in M; auto. subst. eauto.
  - intros (s & ->). f_equal. apply I. apply star_iff. exists s, ps. split; auto. apply LIT; auto.
Qed.

(** The hypotheses are met: stars, a set with ranges, a query and a quoted star, with non-ASCII
    characters, matched and not matched. *)
Example glob_example :
  let p := [0xe9; STAR; OPEN; 97; DASH; 99; 0x20ac; CLOSE; QUERY; BACKSLASH; STAR; STAR] in
  Forall character p /\
  glob_match 20 (text p) (text [0xe9; 120; 121; 98; 0x1f600; 42; 122]) false = Done true /\
  glob_match 20 (text p) (text [0xe9; 120; 121; 100; 0x1f600; 42; 122]) false = Done false.
Proof. split; [repeat constructor|split; vm_compute; reflexivity]. Qed.

Print Assumptions glob_matches_language.
Print Assumptions glob_query_empty_refuted.
Print Assumptions glob_star_suffix.
