(** * Proofs about the format command: it ends, further arguments, bounds *)
From Coq Require Import ZArith List Bool Lia.
Import ListNotations.
Require Import Verif.UtfModel Verif.UtfSpec Verif.MiscSpec Verif.MiscModel Verif.MiscProofs.
Require Import Verif.FmtModel Verif.FmtSpec Verif.FmtProofs Verif.FmtProofs2.
Local Open Scope Z_scope.

Section F.
Context {FS : fsys}.
Notation A := (arg (num FS) (other FS)).

Lemma step_pos s : (1 <= snd (utf_to_unichar s))%nat.
Proof. unfold utf_to_unichar. repeat match goal with |- context [if ?b then _ else _] => destruct b end; cbn [snd]; lia. Qed.
Lemma skip_le {X} n (s : list X) : (length (skipn n s) <= length s)%nat.
Proof. rewrite skipn_length. lia. Qed.

Lemma digits_le base s : forall acc v r, digits base s acc = (v, r) -> (length r <= length s)%nat.
Proof.
  induction s as [|c s IH]; intros acc v r H; cbn [digits] in H.
  - injection H as _ <-. lia.
  - destruct (digit_value c <? base); [apply IH in H; cbn [length]; lia|injection H as _ <-; lia].
Qed.
Lemma skip_space_le s : (length (skip_space s) <= length s)%nat.
Proof. induction s as [|c s IH]; cbn [skip_space]; [lia|]. destruct (isspace c); cbn [length]; lia. Qed.
Lemma strto_le base s neg v r : strto base s = Some (neg, v, r) -> (length r <= length s)%nat.
Proof.
  unfold strto. pose proof (skip_space_le s) as L0. set (s0 := skip_space s) in *.
  destruct (match s0 with c :: r0 => if c =? 45 then (true, r0) else if c =? 43 then (false, r0) else (false, s0) | [] => (false, s0) end) as [ng s1] eqn:E1.
  assert (L1 : (length s1 <= length s0)%nat).
  { destruct s0 as [|c t]; [injection E1 as _ <-; lia|].
    destruct (c =? 45); [injection E1 as _ <-; cbn [length]; lia|].
    destruct (c =? 43); injection E1 as _ <-; cbn [length]; lia. }
  set (s2 := match s1 with z :: x :: d :: r => if (z =? 48) && (base =? 16) && ((x =? 120) || (x =? 88)) && (digit_value d <? 16) then d :: r else s1 | _ => s1 end).
  assert (L2 : (length s2 <= length s1)%nat).
  { unfold s2. destruct s1 as [|z [|x [|d t]]]; try lia.
    match goal with |- context [if ?b then _ else _] => destruct b end; cbn [length]; lia. }
  change (match s2 with c :: _ => if digit_value c <? base then let '(v, r) := digits base s2 0 in Some (ng, v, r) else None | [] => None end = Some (neg, v, r) -> (length r <= length s)%nat).
  clearbody s2. destruct s2 as [|c t]; [discriminate|]. destruct (digit_value c <? base); [|discriminate].
  destruct (digits base (c :: t) 0) as [v' r'] eqn:D. intros H. injection H as _ _ <-. apply digits_le in D. lia.
Qed.
Lemma strtoul_le s v r : strtoul s = (v, r) -> (length r <= length s)%nat.
Proof.
  unfold strtoul, strtoull. destruct (strto 10 s) as [[[neg v'] r']|] eqn:E.
  - intros H. injection H as _ <-. now apply strto_le in E.
  - intros H. injection H as _ <-. lia.
Qed.
Lemma nos_le s (args : list A) o r args' : number_or_star (FS := FS) s args = Some (o, r, args') -> (length r <= length s)%nat.
Proof.
  unfold number_or_star. destruct (utf_to_unichar s) as [ch step].
  destruct (isdigit ch).
  - destruct (strtoul s) as [v r'] eqn:E. intros H. injection H as _ <- _. now apply strtoul_le in E.
  - destruct (ch =? 42).
    + destruct args as [|[x|x|x] [|b l]]; try discriminate. intros H. injection H as _ <- _. apply skip_le.
    + intros H. injection H as _ <- _. lia.
Qed.
Lemma flags_le n : forall s sp minus pad sp' minus' pad' r,
  flags n s sp minus pad = Some (sp', minus', pad', r) -> (length r <= length s)%nat.
Proof.
  induction n as [|n IH]; intros s sp minus pad sp' minus' pad' r; cbn [flags]; destruct (utf_to_unichar s) as [ch step].
  - destruct (is_flag ch); [discriminate|]. intros H. injection H as _ _ _ <-. lia.
  - destruct (is_flag ch).
    + destruct (90 <? _); [discriminate|]. intros H. apply IH in H. pose proof (skip_le step s). lia.
    + intros H. injection H as _ _ _ <-. lia.
Qed.
Lemma mod_le s : (length (length_modifier s) <= length s)%nat.
Proof.
  unfold length_modifier. destruct (utf_to_unichar s) as [ch step]. destruct (ch =? 104); [apply skip_le|].
  destruct (ch =? 108); [|lia]. destruct (utf_to_unichar (skipn step s)) as [c1 st1].
  pose proof (skip_le step s). pose proof (skip_le st1 (skipn step s)). destruct (c1 =? 108); lia.
Qed.

Lemma directive_le s (args : list A) size t s' args' size' :
  directive s args size = DNext t s' args' size' -> (length s' <= length s)%nat.
Proof.
  unfold directive. destruct args as [|a0 args0] eqn:EA; [discriminate|]. rewrite <- EA. clear EA a0 args0.
  destruct (flags 91 s [37] false 32) as [[[[sp minus] pad] s1]|] eqn:EF; [|discriminate].
  destruct (number_or_star s1 args) as [[[o1 s2] args2]|] eqn:EN1; [|discriminate]. cbv zeta.
  destruct (utf_to_unichar s2) as [ch3 step3] eqn:EU.
  destruct (if ch3 =? 46 then (true, skipn step3 s2) else (false, s2)) as [dot s3] eqn:ED.
  destruct (number_or_star s3 args2) as [[[o2 s4] args4]|] eqn:EN2; [|discriminate].
  destruct (utf_to_unichar (length_modifier s4)) as [ch step] eqn:EU2.
  destruct args4 as [|v rest]; [discriminate|].
  match goal with |- context [convert ?a ?b ?c ?d ?e ?f] => destruct (convert a b c d e f) as [tx chars sz| |] eqn:EC end; try discriminate.
  intros H. injection H as _ <- _ _.
  apply flags_le in EF. apply nos_le in EN1. apply nos_le in EN2.
  assert (length s3 <= length s2)%nat.
  { destruct (ch3 =? 46); injection ED as _ <-; [apply skip_le|lia]. }
  pose proof (mod_le s4). pose proof (skip_le step (length_modifier s4)). lia.
Qed.

(** The loop ends. *)
Lemma loop_ends n : forall s lit out (args : list A) size, (length s < n)%nat -> loop n s lit out args size <> FFuel.
Proof.
  induction n as [|n IH]; intros s lit out args size Hn; [lia|]. cbn [loop].
  destruct s as [|c s0] eqn:Es; [discriminate|]. rewrite <- Es in *.
  pose proof (step_pos s) as P. destruct (utf_to_unichar s) as [ch step]. cbn [snd] in P.
  assert (L1 : (length (skipn step s) < length s)%nat) by (rewrite skipn_length; rewrite Es; cbn [length]; lia).
  destruct (negb (ch =? 37)); [apply IH; lia|].
  destruct (utf_to_unichar (skipn step s)) as [ch1 step1].
  pose proof (skip_le step1 (skipn step s)).
  destruct (ch1 =? 37); [apply IH; lia|].
  destruct (directive (skipn step s) args size) as [| |t s2 args2 size2] eqn:D; try discriminate.
  apply directive_le in D. apply IH. lia.
Qed.

(** Further arguments are ignored. *)
Lemma nos_more s (args : list A) more o r args' : number_or_star (FS := FS) s args = Some (o, r, args') ->
  number_or_star (FS := FS) s (args ++ more) = Some (o, r, args' ++ more).
Proof.
  unfold number_or_star. destruct (utf_to_unichar s) as [ch step]. destruct (isdigit ch).
  - destruct (strtoul s) as [v r'] eqn:E. intros H. injection H as <- <- <-. reflexivity.
  - destruct (ch =? 42).
    + destruct args as [|[x|x|x] [|b l]]; try discriminate. intros H. injection H as <- <- <-. reflexivity.
    + intros H. injection H as <- <- <-. reflexivity.
Qed.
Lemma directive_more s (args : list A) more size t s' args' size' :
  directive s args size = DNext t s' args' size' ->
  directive s (args ++ more) size = DNext t s' (args' ++ more) size'.
Proof.
  unfold directive. destruct args as [|a0 args0] eqn:EA; [discriminate|]. cbn [app]. rewrite app_comm_cons, <- EA. clear EA a0 args0.
  destruct (flags 91 s [37] false 32) as [[[[sp minus] pad] s1]|] eqn:EF; [|discriminate].
  destruct (number_or_star s1 args) as [[[o1 s2] args2]|] eqn:EN1; [|discriminate].
  rewrite (nos_more _ _ more _ _ _ EN1). cbv zeta.
  destruct (utf_to_unichar s2) as [ch3 step3] eqn:EU.
  destruct (if ch3 =? 46 then (true, skipn step3 s2) else (false, s2)) as [dot s3] eqn:ED.
  destruct (number_or_star s3 args2) as [[[o2 s4] args4]|] eqn:EN2; [|discriminate].
  rewrite (nos_more _ _ more _ _ _ EN2).
  destruct (utf_to_unichar (length_modifier s4)) as [ch step] eqn:EU2.
  destruct args4 as [|v rest]; [discriminate|]. cbn [app].
  match goal with |- context [convert ?a ?b ?c ?d ?e ?f] => destruct (convert a b c d e f) as [tx chars sz| |] eqn:EC end; try discriminate.
  intros H. injection H as <- <- <- <-. reflexivity.
Qed.
Lemma loop_more n more : forall s lit out (args : list A) size o, loop n s lit out args size = FOk o ->
  loop n s lit out (args ++ more) size = FOk o.
Proof.
  induction n as [|n IH]; intros s lit out args size o; cbn [loop]; [discriminate|].
  destruct s as [|c s0] eqn:Es; [auto|]. rewrite <- Es in *.
  destruct (utf_to_unichar s) as [ch step]. destruct (negb (ch =? 37)); [apply IH|].
  destruct (utf_to_unichar (skipn step s)) as [ch1 step1]. destruct (ch1 =? 37); [apply IH|].
  destruct (directive (skipn step s) args size) as [| |t s2 args2 size2] eqn:D; try discriminate.
  rewrite (directive_more _ _ more _ _ _ _ _ D). apply IH.
Qed.

(** ** Bounds *)
Definition ascii_text (s : list Z) : Prop := Forall (fun c => 0 < c < 128) s.
Definition short_runs (s : list Z) : Prop :=
  forall a d b, s = a ++ d ++ b -> Forall (fun c => 48 <= c <= 57) d -> (length d <= 9)%nat.
Definition small_args (args : list A) : Prop := forall n, In (ANum n) args -> Z.abs (wide FS n) < 10 ^ 9.
Definition fine (s : list Z) (args : list A) : Prop :=
  ascii_text s /\ short_runs s /\ (In 42 s -> small_args args).
Lemma fine_suffix a s args : fine (a ++ s) args -> fine s args.
Proof.
  intros (H1 & H2 & H3). split; [|split].
  - apply Forall_app in H1. tauto.
  - intros x d b E Hd. apply (H2 (a ++ x) d b); [now rewrite E, app_assoc|exact Hd].
  - intros H. apply H3. apply in_or_app. auto.
Qed.
Lemma asc_step s args : fine s args -> utf_to_unichar s = (match s with c :: _ => c | [] => 0 end, 1%nat).
Proof.
  intros (H & _). destruct s as [|c s]; [reflexivity|]. apply asc. inversion H; lia.
Qed.
Lemma fine_tail s args : fine s args -> fine (skipn 1 s) args.
Proof. intros H. destruct s as [|c s]; [exact H|]. cbn [skipn]. now apply (fine_suffix [c]). Qed.

Lemma numeral_take s : forall c, isdigit c = true -> ascii_text (c :: s) ->
  exists d r n, c :: s = d ++ r /\ numeral 10 d n /\ Forall (fun c => 48 <= c <= 57) d /\ stopper r /\
                n < 10 ^ Z.of_nat (length d).
Proof.
  induction s as [|c' s IH]; intros c Hc HA.
  - assert (48 <= c <= 57) by (unfold isdigit in Hc; apply andb_true_iff in Hc; rewrite !Z.leb_le in Hc; lia).
    exists [c], [], (c - 48). repeat split; auto.
    + constructor. split; [lia|]. left. lia.
    + cbn. lia.
  - assert (Hr : 48 <= c <= 57) by (unfold isdigit in Hc; apply andb_true_iff in Hc; rewrite !Z.leb_le in Hc; lia).
    inversion HA as [|? ? _ HA']; subst.
    destruct (isdigit c') eqn:E.
    + destruct (IH c' E HA') as (d & r & n & E1 & E2 & E3 & E4 & E5).
      exists (c :: d), r, ((c - 48) * 10 ^ Z.of_nat (length d) + n). rewrite E1. split; [reflexivity|]. split; [|split; [|split]].
      * apply numeral_cons; [exact E2|]. split; [lia|]. left. lia.
      * constructor; assumption.
      * exact E4.
      * cbn [length]. rewrite Nat2Z.inj_succ, Z.pow_succ_r by lia. nia.
    + exists [c], (c' :: s), (c - 48). repeat split; auto.
      * constructor. split; [lia|]. left. lia.
      * inversion HA'; lia.
      * inversion HA'; lia.
      * cbn. lia.
Qed.

Lemma nos_bound s (args : list A) o r args' : fine s args -> number_or_star (FS := FS) s args = Some (o, r, args') ->
  exists d, s = d ++ r /\ (exists a, args = a ++ args') /\
  (forall v, o = Some v -> Z.abs v < 10 ^ 9 /\ (star s = false -> 0 <= v)) /\ (star s = true -> d <> []).
Proof.
  intros HF. unfold number_or_star, star. rewrite (asc_step s args HF). cbn [fst].
  destruct s as [|c s].
  - cbn. intros H. injection H as <- <- <-. exists []. split; [reflexivity|]. split; [exists []; reflexivity|]. split; [discriminate|discriminate].
  - destruct (isdigit c) eqn:D.
    + destruct (numeral_take s c D (proj1 HF)) as (d & r' & n & E1 & E2 & E3 & E4 & E5).
      pose proof (numeral10_range _ _ E2) as HN.
      assert (L : (length d <= 9)%nat) by (apply (proj1 (proj2 HF) [] d r'); [exact E1|exact E3]).
      assert (B : n < 10 ^ 9).
      { assert (10 ^ Z.of_nat (length d) <= 10 ^ 9) by (apply Z.pow_le_mono_r; lia). lia. }
      rewrite E1. rewrite (strtoul_numeral d n r' E2); [|lia|exact E4].
      intros H. injection H as <- <- <-. exists d. split; [reflexivity|]. split; [exists []; reflexivity|]. split; [|discriminate].
      intros v H. injection H as <-. split; [lia|]. intros _. exact HN.
    + destruct (Z.eqb_spec c 42) as [->|].
      * destruct args as [|[x|x|x] [|b l]]; try discriminate. intros H. injection H as <- <- <-.
        exists [42]. split; [reflexivity|]. split; [exists [ANum x]; reflexivity|]. split; [|discriminate].
        intros v H. injection H as <-. split; [|discriminate].
        apply (proj2 (proj2 HF)); left; reflexivity.
      * intros H. injection H as <- <- <-. exists []. split; [reflexivity|]. split; [exists []; reflexivity|]. split; [discriminate|discriminate].
Qed.
Lemma flags_bound n : forall s args sp minus pad sp' minus' pad' r, fine s args ->
  flags n s sp minus pad = Some (sp', minus', pad', r) -> exists fl, s = fl ++ r /\ sp' = sp ++ fl.
Proof.
  induction n as [|n IH]; intros s args sp minus pad sp' minus' pad' r HF; cbn [flags]; rewrite (asc_step s args HF).
  - destruct (is_flag _); [discriminate|]. intros H. injection H as <- _ _ <-. exists []. split; [reflexivity|now rewrite app_nil_r].
  - destruct (is_flag _) eqn:EF.
    + destruct (90 <? _); [discriminate|]. intros H.
      destruct s as [|c s]; [discriminate|]. cbn [skipn] in H.
      apply (IH s args) in H; [|exact (fine_tail _ _ HF)]. destruct H as (fl & -> & ->).
      exists (c :: fl). split; [reflexivity|]. rewrite <- app_assoc. reflexivity.
    + intros H. injection H as <- _ _ <-. exists []. split; [reflexivity|now rewrite app_nil_r].
Qed.
Lemma mod_bound s args : fine s args -> exists d, s = d ++ length_modifier s.
Proof.
  intros HF. unfold length_modifier. rewrite (asc_step s args HF).
  destruct s as [|c s]; [exists []; reflexivity|]. cbn [skipn].
  destruct (c =? 104); [exists [c]; reflexivity|]. destruct (c =? 108); [|exists []; reflexivity].
  pose proof (fine_tail _ _ HF) as HT. cbn [skipn] in HT. rewrite (asc_step s args HT).
  destruct s as [|c' s]; [exists [c]; reflexivity|]. cbn [skipn].
  destruct (c' =? 108); [exists [c; c']; reflexivity|exists [c]; reflexivity].
Qed.

(* widths below 10^9 take 9 digits *)
Lemma print9 n : 0 <= n < 10 ^ 9 -> FmtModel.zlen (print_d n) <= 10.
Proof. intros H. apply (decimal_len n). lia. Qed.
Definition size_ok (size : Z) : Prop := 100 <= size.
Lemma convert_bound sp w p c v size : FmtModel.zlen sp <= 71 -> 0 <= w < 10 ^ 9 ->
  (forall p', p = Some p' -> 0 <= p' < 10 ^ 9) -> 100 <= size ->
  match convert (FS := FS) sp w p c v size with COver => False | CErr => True | CText _ _ size' => 100 <= size' end.
Proof.
  intros Hsp Hw Hp Hs.
  assert (L1 : FmtModel.zlen (if w =? 0 then [] else print_d w) <= 10).
  { destruct (w =? 0); [cbn; lia|]. now apply print9. }
  assert (L2 : FmtModel.zlen (match p with Some p => 46 :: print_d p | None => [] end) <= 11).
  { destruct p as [p|]; [|cbn; lia]. rewrite zlen_cons. pose proof (print9 p (Hp p eq_refl)). lia. }
  unfold convert. cbv zeta.
  destruct (c =? 0); [exact Logic.I|]. destruct (c =? 113); [destruct v; exact Hs|].
  destruct (c =? 83); [exact Hs|]. destruct (c =? 115); [destruct v; first [exact Hs|exact Logic.I]|].
  destruct ((c =? 99) || (c =? 67)).
  { destruct v as [[|b [|b' s]]|n|o]; try exact Logic.I; [exact Hs|].
    destruct ((wide FS n <? 0) || (255 <? wide FS n)); [exact Logic.I|]. destruct (c =? 67); exact Hs. }
  destruct (is_double c || is_integer c).
  2: { destruct (Z.ltb_spec 100 (FmtModel.zlen sp + 1 + 25 + 1)); [lia|exact Logic.I]. }
  match goal with |- context [100 <? ?z] => destruct (Z.ltb_spec 100 z) as [L|L] end; [lia|].
  destruct v as [s|n|o]; try exact Logic.I.
  unfold number.
  match goal with |- context [printf FS ?d n] => set (sp1 := d) end.
  assert (LS : FmtModel.zlen sp1 <= 95).
  { unfold sp1. rewrite !zlen_app. assert (FmtModel.zlen (if is_double c then [] else [108; 108]) <= 2) by (destruct (is_double c); cbn; lia).
    change (FmtModel.zlen [c]) with 1. lia. }
  destruct (Z.ltb_spec 100 (FmtModel.zlen sp1 + 1)); [lia|].
  set (len0 := if is_double c then 320 else 24).
  set (len1 := if len0 <? w then to_int w else len0).
  assert (B0 : 24 <= len0 <= 320) by (unfold len0; destruct (is_double c); lia).
  assert (B1 : 24 <= len1 < 10 ^ 9 + 1).
  { unfold len1. destruct (Z.ltb_spec len0 w); [rewrite to_int_id; lia|lia]. }
  set (len2 := match p with Some p0 => to_int (len1 + p0) | None => len1 end).
  assert (B2 : 24 <= len2 < 2 * 10 ^ 9 + 1).
  { unfold len2. destruct p as [p|]; [|lia]. specialize (Hp p eq_refl). rewrite to_int_id; lia. }
  rewrite (to_int_id (len2 + 1)) by lia.
  set (size1 := if size <? len2 + 1 then len2 + 1 else size).
  assert (S1 : 100 <= size1 /\ len2 + 1 <= size1) by (unfold size1; destruct (Z.ltb_spec size (len2 + 1)); lia).
  destruct (Z.ltb_spec (len2 + 1) 0); [lia|].
  match goal with |- context [firstn ?k ?l] => set (st := firstn k l) end.
  assert (LT : FmtModel.zlen st <= len2) by (unfold st, FmtModel.zlen; rewrite firstn_length; lia).
  destruct (Z.ltb_spec size1 (FmtModel.zlen st + 1)); [lia|]. lia.
Qed.

Lemma directive_bound s (args : list A) size : fine s args -> (length s <= 69)%nat -> 100 <= size ->
  match directive s args size with
  | DErr => True
  | DOver => False
  | DNext _ s' args' size' => (exists d, s = d ++ s') /\ (exists a, args = a ++ args') /\ 100 <= size'
  end.
Proof.
  intros HF HL Hs. unfold directive. destruct args as [|a0 args0] eqn:EA; [exact Logic.I|]. rewrite <- EA in *. clear EA a0 args0.
  destruct (flags 91 s [37] false 32) as [[[[sp minus] pad] s1]|] eqn:EF; [|exact Logic.I].
  destruct (flags_bound _ _ args _ _ _ _ _ _ _ HF EF) as (fl & -> & ->).
  assert (F1 : fine s1 args) by exact (fine_suffix _ _ _ HF).
  destruct (number_or_star s1 args) as [[[o1 s2] args2]|] eqn:EN1; [|exact Logic.I].
  destruct (nos_bound _ _ _ _ _ F1 EN1) as (d1 & -> & (a1 & ->) & HB1 & HB1').
  assert (F2 : fine s2 args2).
  { apply fine_suffix in F1. destruct F1 as (Q1 & Q2 & Q3). split; [exact Q1|]. split; [exact Q2|].
    intros H n Hn. apply Q3; [exact H|]. apply in_or_app. auto. }
  cbv zeta. rewrite (asc_step s2 args2 F2).
  set (w0 := match o1 with Some w => w | None => 0 end) in *.
  assert (BW : Z.abs w0 < 10 ^ 9 /\ (star (d1 ++ s2) = false -> 0 <= w0)).
  { unfold w0. destruct o1 as [w|]; [exact (HB1 w eq_refl)|lia]. }
  set (neg := star (d1 ++ s2) && (w0 <? 0)).
  assert (WID : 0 <= (if neg then to_long (- w0) else w0) < 10 ^ 9).
  { unfold neg. destruct (star (d1 ++ s2)); cbn [andb]; [|lia]. destruct (Z.ltb_spec w0 0); [rewrite to_long_id; lia|lia]. }
  set (width := if neg then to_long (- w0) else w0) in *.
  destruct (if match s2 with c :: _ => c | [] => 0 end =? 46 then (true, skipn 1 s2) else (false, s2)) as [dot s3] eqn:ED.
  assert (F3 : exists d2, s2 = d2 ++ s3).
  { destruct s2 as [|c s2]; [injection ED as _ <-; exists []; reflexivity|].
    destruct (c =? 46); injection ED as _ <-; [exists [c]; reflexivity|exists []; reflexivity]. }
  destruct F3 as (d2 & ->). assert (F3 : fine s3 args2) by exact (fine_suffix _ _ _ F2).
  destruct (number_or_star s3 args2) as [[[o2 s4] args4]|] eqn:EN2; [|exact Logic.I].
  destruct (nos_bound _ _ _ _ _ F3 EN2) as (d3 & -> & (a2 & ->) & HB2 & _).
  assert (F4 : fine s4 args4).
  { apply fine_suffix in F3. destruct F3 as (Q1 & Q2 & Q3). split; [exact Q1|]. split; [exact Q2|].
    intros H n Hn. apply Q3; [exact H|]. apply in_or_app. auto. }
  set (p0 := match o2 with Some p => p | None => 0 end) in *.
  assert (BP : 0 <= (if star (d3 ++ s4) && (p0 <? 0) then 0 else p0) < 10 ^ 9).
  { assert (BP : Z.abs p0 < 10 ^ 9 /\ (star (d3 ++ s4) = false -> 0 <= p0)).
    { unfold p0. destruct o2 as [p|]; [exact (HB2 p eq_refl)|lia]. }
    destruct (star (d3 ++ s4)); cbn [andb]; [|lia]. destruct (Z.ltb_spec p0 0); lia. }
  set (p1 := if star (d3 ++ s4) && (p0 <? 0) then 0 else p0) in *.
  destruct (mod_bound s4 args4 F4) as (d4 & E4).
  set (s5 := length_modifier s4) in *. rewrite E4 in F4. apply fine_suffix in F4. rewrite (asc_step s5 args4 F4).
  destruct args4 as [|v rest]; [exact Logic.I|].
  set (sp' := if neg && negb minus then ([37] ++ fl) ++ [45] else [37] ++ fl).
  assert (LSP : FmtModel.zlen sp' <= 71).
  { assert (FmtModel.zlen fl <= 69) by (rewrite !app_length in HL; unfold FmtModel.zlen; lia).
    unfold sp'. destruct (neg && negb minus); rewrite ?zlen_app; change (FmtModel.zlen [37]) with 1; change (FmtModel.zlen [45]) with 1; lia. }
  match goal with |- context [convert sp' width ?p ?c v size] =>
    pose proof (convert_bound sp' width p c v size LSP WID ltac:(intros p' Ep; destruct dot; [injection Ep as <-; exact BP|discriminate]) Hs) as HC;
    destruct (convert sp' width p c v size) end; [|exact Logic.I|exact HC].
  split; [|split; [|exact HC]].
  - rewrite E4. exists (fl ++ d1 ++ d2 ++ d3 ++ d4 ++ firstn 1 s5). rewrite <- !app_assoc. now rewrite firstn_skipn.
  - exists (a1 ++ a2 ++ [v]). rewrite <- !app_assoc. reflexivity.
Qed.

Lemma loop_bound n : forall s lit out (args : list A) size, fine s args -> (length s <= 70)%nat -> 100 <= size ->
  loop n s lit out args size <> FOver.
Proof.
  induction n as [|n IH]; intros s lit out args size HF HL Hs; cbn [loop]; [discriminate|].
  destruct s as [|c s]; [discriminate|]. rewrite (asc_step _ args HF). cbn [skipn].
  assert (F1 : fine s args) by exact (fine_tail _ _ HF). cbn [length] in HL.
  destruct (negb (c =? 37)); [apply IH; [exact F1|lia|exact Hs]|].
  rewrite (asc_step s args F1). destruct (_ =? 37).
  - pose proof (skip_le 1 s). apply IH; [exact (fine_tail _ _ F1)|lia|exact Hs].
  - pose proof (directive_bound s args size F1 ltac:(lia) Hs) as HD.
    destruct (directive s args size) as [| |t s2 args2 size2]; [discriminate|destruct HD|].
    destruct HD as ((d & ->) & (a & ->) & Hs2). apply IH; [|rewrite app_length in HL; lia|exact Hs2].
    apply fine_suffix in F1. destruct F1 as (Q1 & Q2 & Q3). split; [exact Q1|]. split; [exact Q2|].
    intros H k Hk. apply Q3; [exact H|]. apply in_or_app. auto.
Qed.
End F.
