(** * C68: the format command *)
From Coq Require Import ZArith List Bool Lia.
Import ListNotations.
Require Import Verif.UtfModel Verif.UtfSpec Verif.UtfProofs Verif.MiscSpec Verif.MiscModel Verif.MiscProofs.
Require Import Verif.FmtModel Verif.FmtSpec Verif.FmtProofs Verif.FmtProofs2 Verif.FmtProofs3 Verif.FmtProofs4.
Local Open Scope Z_scope.

Section Props.
Context {FS : fsys}.
Notation A := (arg (num FS) (other FS)).

(** A format string produces what its pieces say, or an error if an argument is missing or of the wrong
    kind or a conversion is unknown.  Here "small": at most 70 flags in a field, and widths and precisions below
    2^30. *)
Theorem format_meaning ps text (args : list A) : printf_brief FS -> spells_all ps text -> small ps args ->
  format text args = match meaning ps args with Some o => FOk o | None => FErr end.
Proof.
  intros HB HS Hsm. unfold format. rewrite (loop_meaning HB ps text HS); [reflexivity|lia|lia|exact Hsm].
Qed.
(** A text without percent signs is itself, whatever the arguments. *)
Corollary format_plain cs (args : list A) : printf_brief FS -> Forall (fun c => codepoint c /\ c <> 37) cs ->
  format (flat_map utf8 cs) args = FOk (flat_map utf8 cs).
Proof.
  intros HB H. rewrite <- (app_nil_r (flat_map utf8 cs)) at 1.
  rewrite (format_meaning [Text cs]); [|exact HB|repeat constructor; exact H|exact Logic.I].
  cbn. now rewrite app_nil_r.
Qed.
(** A field shows its argument and nothing else: %s of a string is the string. *)
Corollary format_string (s : list Z) : printf_brief FS -> format [37; 115] [@AStr (num FS) (other FS) s] = FOk s.
Proof.
  intros HB.
  assert (SP : spells_all [Field (mkfield [] NoWidth NoPrec [] 115)] [37; 115]).
  { change [37; 115] with ([37; 115] ++ []). constructor; [|constructor].
    apply (spells_field (mkfield [] NoWidth NoPrec [] 115) [] []); [constructor|constructor|constructor|left; reflexivity|].
    cbn [fconv]. repeat split; try lia; unfold flag_char; cbn; lia. }
  rewrite (format_meaning _ _ _ HB SP).
  - cbn. unfold pad_to. cbn.
    replace (Z.to_nat (- Z.of_nat (length s))) with O by lia. cbn. now rewrite app_nil_r.
  - cbn. split; [|auto]. split; [cbn; lia|]. intros w args1 H. injection H as <- _. split; [lia|]. discriminate.
Qed.
(** Any format string and arguments: the result is a string or an error (or a buffer was overrun, below). *)
Theorem format_total f (args : list A) : format f args <> FFuel.
Proof. unfold format. apply loop_ends. lia. Qed.
(** Arguments beyond those that the format asks for are ignored. *)
Theorem format_extra f (args more : list A) o : format f args = FOk o -> format f (args ++ more) = FOk o.
Proof. unfold format. apply loop_more. Qed.

(** The buffers are kept in bounds if the text is ASCII and at most 70 bytes long, has no run of ten digits,
    and no width or precision is taken from an argument beyond 10^9. *)
Theorem format_safe f (args : list A) : (length f <= 70)%nat -> Forall (fun c => 0 < c < 128) f ->
  (forall a d b, f = a ++ d ++ b -> Forall (fun c => 48 <= c <= 57) d -> (length d <= 9)%nat) ->
  (In 42 f -> forall n, In (ANum n) args -> Z.abs (wide FS n) < 10 ^ 9) ->
  format f args <> FOver.
Proof.
  intros H1 H2 H3 H4. unfold format. apply loop_bound; [|exact H1|lia]. split; [exact H2|]. split; [exact H3|exact H4].
Qed.
(** ... so the command then gives a string or reports an error. *)
Corollary format_safe_total f (args : list A) : (length f <= 70)%nat -> Forall (fun c => 0 < c < 128) f ->
  (forall a d b, f = a ++ d ++ b -> Forall (fun c => 48 <= c <= 57) d -> (length d <= 9)%nat) ->
  (In 42 f -> forall n, In (ANum n) args -> Z.abs (wide FS n) < 10 ^ 9) ->
  format f args = FErr \/ exists o, format f args = FOk o.
Proof.
  intros H1 H2 H3 H4. pose proof (format_safe f args H1 H2 H3 H4). pose proof (format_total f args).
  destruct (format f args); try congruence; eauto.
Qed.

(** Without these limits the buffers are overrun. *)
(* 80 flags and an unknown conversion: the message is built in spec[100] *)
Theorem format_flags_refuted (v : A) : format (37 :: repeat 45 80 ++ [121]) [v] = FOver.
Proof. vm_compute. reflexivity. Qed.
(* the precision overflows the int [length]: the number buffer stays at 100 bytes, and snprintf is told
   there is plenty of room.  "%.2147483400f" *)
Theorem format_precision_refuted (n : num FS) :
  100 <= Z.of_nat (length (printf FS (printf_directive [] 0 (Some 2147483400) 102) n)) ->
  format [37; 46; 50; 49; 52; 55; 52; 56; 51; 52; 48; 48; 102] [@ANum _ (other FS) n] = FOver.
Proof.
  intros H. set (d := printf FS (printf_directive [] 0 (Some 2147483400) 102) n) in *.
  assert (E : convert [37] 0 (Some 2147483400) 102 (@ANum _ (other FS) n) 100 = COver).
  { change (convert [37] 0 (Some 2147483400) 102 (@ANum _ (other FS) n) 100) with
      (match (if 100 <? FmtModel.zlen d + 1 then None else Some (d, 100)) with
       | Some (t, size') => CText t (FmtModel.zlen t) size' | None => COver end).
    destruct (Z.ltb_spec 100 (FmtModel.zlen d + 1)); [reflexivity|]. unfold FmtModel.zlen in *. lia. }
  unfold format. change (loop (S (length [37; 46; 50; 49; 52; 55; 52; 56; 51; 52; 48; 48; 102]))
    [37; 46; 50; 49; 52; 55; 52; 56; 51; 52; 48; 48; 102] [] [] [ANum n] 100) with
    (match (match convert [37] 0 (Some 2147483400) 102 (@ANum _ (other FS) n) 100 with
            | CErr => @DErr FS | COver => @DOver FS
            | CText t chars size' => @DNext FS (padded false 32 0 chars t) [] [] size' end) with
     | DErr => FErr | DOver => FOver
     | DNext t s2 args2 size2 => loop 13 s2 [] ([] ++ [] ++ t) args2 size2 end).
  rewrite E. reflexivity.
Qed.
(* a precision counts bytes, and cuts a character in two: "%.1s" of U+00E9 *)
Theorem format_cut_refuted : format [37; 46; 49; 115] [@AStr (num FS) (other FS) (utf8 233)] = FOk [195].
Proof. vm_compute. reflexivity. Qed.
End Props.

(** ** Concrete cases.  Numbers are integers; printf is the decimal digits, at most 20 of them, and does not
    pad. *)
Definition tiny : fsys := mkfsys Z unit (fun n => n)
  (fun a => match a with AStr s => s | ANum n => print_d n | AOther _ => [110; 117; 108; 108] end)
  (fun a => match a with AStr s => 34 :: s ++ [34] | ANum n => print_d n | AOther _ => [110; 117; 108; 108] end)
  (fun _ n => firstn 20 (print_d n)).
Example tiny_brief : printf_brief tiny.
Proof.
  intros flags w p c n _ Hw Hp _. cbn [printf tiny].
  assert (length (firstn 20 (print_d n)) <= 20)%nat by (rewrite firstn_length; lia).
  assert (0 <= match p with Some p => p | None => 0 end) by (destruct p; [now apply Hp|lia]).
  destruct (is_in c floats); lia.
Qed.
(* "a%-*s|%05d%%" *)
Definition demo : list piece :=
  [Text [97]; Field (mkfield [45] ArgWidth NoPrec [] 115); Text [124]; Field (mkfield [48] (Width 5) NoPrec [108] 100); Percent].
Definition demo_text : list Z := [97; 37; 45; 42; 115; 124; 37; 48; 53; 108; 100; 37; 37].
Definition demo_args : list (arg Z unit) := [ANum 4; AStr [104; 105]; ANum 42; AOther tt].
Lemma demo_spells : spells_all demo demo_text.
Proof.
  change demo_text with ([97] ++ [37; 45; 42; 115] ++ [124] ++ [37; 48; 53; 108; 100] ++ [37; 37] ++ []).
  assert (CC : forall c, In c [115; 100] -> conv_char c).
  { intros c [<-|[<-|[]]]; repeat split; try lia; unfold flag_char; cbn; lia. }
  constructor; [apply (spells_text [97]); constructor; [|constructor]; split; [unfold codepoint|]; lia|].
  constructor; [apply (spells_field (mkfield [45] ArgWidth NoPrec [] 115) [42] []); cbn; auto|].
  { constructor; [left; reflexivity|constructor]. } { constructor. } { constructor. }
  { apply CC. cbn. auto. }
  constructor; [apply (spells_text [124]); constructor; [|constructor]; split; [unfold codepoint|]; lia|].
  constructor; [apply (spells_field (mkfield [48] (Width 5) NoPrec [108] 100) [53] []); cbn; auto|].
  { constructor; [right; left; reflexivity|constructor]. }
  { constructor; [constructor; split; lia|cbn; lia|lia]. } { constructor. }
  { apply CC. cbn. auto. }
  repeat constructor.
Qed.
Example demo_small : small (FS := tiny) demo demo_args.
Proof.
  cbn [small demo]. split.
  { split; [cbn; lia|]. intros w a H. cbn in H. injection H as <- <-. split; [lia|]. discriminate. }
  intros t rest H. vm_compute in H. injection H as _ <-. split; [|intros; exact Logic.I].
  split; [cbn; lia|]. intros w a H. cbn in H. injection H as <- <-. split; [lia|]. discriminate.
Qed.
Example demo_out : format (FS := tiny) demo_text demo_args = FOk [97; 104; 105; 32; 32; 124; 48; 48; 48; 52; 50; 37].
Proof. rewrite (format_meaning (FS := tiny) demo demo_text demo_args tiny_brief demo_spells demo_small). reflexivity. Qed.
Example demo_missing : format (FS := tiny) demo_text [ANum 4; AStr [104; 105]] = FErr.
Proof. vm_compute. reflexivity. Qed.
Example demo_safe : format (FS := tiny) demo_text demo_args <> FOver.
Proof.
  apply (format_safe (FS := tiny)).
  - cbn. lia.
  - repeat constructor; lia.
  - intros a d b E HD. assert (L : length demo_text = length (a ++ d ++ b)) by now rewrite E.
    rewrite !app_length in L. cbn in L.
    destruct (Nat.le_gt_cases (length d) 9) as [G|G]; [exact G|exfalso].
    assert (exists c, In c d /\ c = 124) as (c & Hc & ->).
    { assert (K : In 124 d \/ ~ In 124 d) by (destruct (in_dec Z.eq_dec 124 d); auto).
      destruct K as [K|K]; [exists 124; auto|exfalso].
      do 4 (destruct a as [|? a]; [cbn in E; do 10 (destruct d as [|? d]; [cbn in G; lia|]); injection E as; subst; apply K; cbn; tauto|]).
      cbn in L. lia. }
    rewrite Forall_forall in HD. specialize (HD _ Hc). lia.
  - intros _ n Hn. cbn in Hn. destruct Hn as [E|[E|[E|[E|[]]]]]; injection E as <- || discriminate; cbn; lia.
Qed.
