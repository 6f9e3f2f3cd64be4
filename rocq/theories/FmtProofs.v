(** * Proofs about the format command *)
From Coq Require Import ZArith List Bool Lia.
Import ListNotations.
Require Import Verif.UtfModel Verif.UtfSpec Verif.UtfProofs Verif.MiscSpec Verif.MiscModel Verif.MiscProofs.
Require Import Verif.FmtModel Verif.FmtSpec.
Local Open Scope Z_scope.

Section F.
Context {FS : fsys}.
Notation A := (arg (num FS) (other FS)).

(** ASCII characters are read as themselves. *)
Lemma asc c r : c < 192 -> utf_to_unichar (c :: r) = (c, 1%nat).
Proof. intros H. unfold utf_to_unichar, at_. cbn [nth]. destruct (Z.ltb_spec c 0xc0); [reflexivity|lia]. Qed.
Lemma flag_is c : flag_char c <-> is_flag c = true.
Proof.
  unfold flag_char, is_flag. cbn [In]. rewrite !orb_true_iff, !Z.eqb_eq. intuition lia.
Qed.
Lemma flag_small c : flag_char c -> c < 192.
Proof. unfold flag_char. cbn [In]. lia. Qed.

Lemma zlen_app {X} (a b : list X) : FmtModel.zlen (a ++ b) = FmtModel.zlen a + FmtModel.zlen b.
Proof. unfold FmtModel.zlen. rewrite app_length. lia. Qed.
Lemma zlen_cons {X} (a : X) b : FmtModel.zlen (a :: b) = 1 + FmtModel.zlen b.
Proof. unfold FmtModel.zlen. cbn [length]. lia. Qed.
Lemma zlen_pos {X} (a : list X) : 0 <= FmtModel.zlen a.
Proof. unfold FmtModel.zlen. lia. Qed.

Definition first_ok (s : list Z) : Prop := match s with c :: _ => 0 <= c < 128 /\ is_flag c = false | [] => True end.
Lemma flags_run fl : forall n r sp minus pad, Forall flag_char fl -> first_ok r -> (length fl <= n)%nat ->
  FmtModel.zlen sp + FmtModel.zlen fl <= 90 ->
  flags n (fl ++ r) sp minus pad =
  Some (sp ++ fl, minus || is_in 45 fl, if is_in 48 fl then 48 else pad, r).
Proof.
  induction fl as [|c fl IH]; intros n r sp minus pad HF Hr Hn HL; cbn [app].
  - rewrite app_nil_r. cbn [is_in existsb]. rewrite orb_false_r.
    destruct n; cbn [flags]; (destruct r as [|c r]; [reflexivity|]); destruct Hr as [Hc Hf];
      rewrite asc by lia; rewrite Hf; reflexivity.
  - inversion HF as [|? ? Hc HF']; subst. cbn [length] in Hn. destruct n as [|n]; [lia|].
    cbn [flags]. rewrite asc by now apply flag_small. rewrite (proj1 (flag_is c) Hc).
    rewrite zlen_cons in HL. rewrite zlen_app, zlen_cons. change (FmtModel.zlen (@nil Z)) with 0.
    pose proof (zlen_pos fl). destruct (Z.ltb_spec 90 (FmtModel.zlen sp + (1 + 0))) as [L|L]; [lia|].
    cbn [skipn]. rewrite IH; auto; [|lia|rewrite zlen_app, zlen_cons; change (FmtModel.zlen (@nil Z)) with 0; lia].
    rewrite <- app_assoc. cbn [app is_in existsb]. f_equal. f_equal. f_equal. f_equal.
    + rewrite <- orb_assoc. f_equal. f_equal. apply Z.eqb_sym.
    + fold (is_in 48 fl). rewrite (Z.eqb_sym 48 c). destruct (c =? 48), (is_in 48 fl); reflexivity.
Qed.

Lemma numeral10_range s n : numeral 10 s n -> 0 <= n.
Proof. induction 1 as [c v (Hv & _)|s n c v H IH (Hv & _)]; lia. Qed.
Lemma digit10 c v : digit_is 10 c v -> 48 <= c <= 57.
Proof. intros (Hv & H). lia. Qed.

(* the character after a number or a star *)
Definition stopper (s : list Z) : Prop := match s with c :: _ => 0 <= c < 128 /\ isdigit c = false | [] => True end.
Lemma stopper_stops s : stopper s -> stops 10 s.
Proof.
  intros H c r ->. destruct H as [Hc Hd]. unfold isdigit in Hd. apply Z.ltb_ge. unfold digit_value.
  revert Hd. destruct (Z.leb_spec 48 c), (Z.leb_spec c 57); cbn [andb]; try discriminate; intros _.
  all: repeat match goal with |- context [Z.leb ?a ?b] => destruct (Z.leb_spec a b); cbn [andb] end; auto with zarith.
Qed.
Lemma strtoul_numeral s n r : numeral 10 s n -> n < 2 ^ 63 -> stopper r -> strtoul (s ++ r) = (n, r).
Proof.
  intros Hn Hb Hr. unfold strtoul, strtoull.
  destruct (strto_numeral 10 s n r ltac:(lia) Hn (stopper_stops _ Hr)) as [->|(E & _)]; [|lia].
  pose proof (numeral10_range _ _ Hn). unfold two64.
  match goal with |- context [Z.leb ?a n] => destruct (Z.leb_spec a n); [lia|] end. f_equal. unfold to_long. rewrite Z.mod_small; lia.
Qed.
Lemma nos_number s n r args : numeral 10 s n -> n < 2 ^ 63 -> stopper r ->
  number_or_star (FS := FS) (s ++ r) args = Some (Some n, r, args) /\ star (s ++ r) = false.
Proof.
  intros Hn Hb Hr. unfold number_or_star, star. pose proof (strtoul_numeral s n r Hn Hb Hr) as E.
  destruct (numeral_first _ _ _ Hn) as (c & s' & v & -> & Hd). apply digit10 in Hd.
  cbn [app]. rewrite asc by lia. cbn [fst].
  assert (D : isdigit c = true) by (unfold isdigit; destruct (Z.leb_spec 48 c), (Z.leb_spec c 57); auto; lia).
  rewrite D. cbn [app] in E. rewrite E. split; reflexivity.
Qed.
Lemma nos_none r args : match r with c :: _ => c <> 42 | [] => True end -> stopper r ->
  number_or_star (FS := FS) r args = Some (None, r, args) /\ star r = false.
Proof.
  intros H1 H2. unfold number_or_star, star. destruct r as [|c r].
  - split; reflexivity.
  - destruct H2 as [Hc Hd]. rewrite asc by lia. cbn [fst]. rewrite Hd.
    destruct (Z.eqb_spec c 42); [contradiction|]. split; reflexivity.
Qed.
Lemma nos_star r args : number_or_star (FS := FS) (42 :: r) args =
    match args with
    | ANum n :: _ :: _ => Some (Some (wide FS n), r, tl args)
    | _ => None
    end /\ star (42 :: r) = true.
Proof.
  unfold number_or_star, star. rewrite asc by lia. cbn [fst isdigit Z.leb andb Z.eqb].
  split; [|reflexivity]. change (isdigit 42) with false. cbv iota.
  change (42 =? 42) with true. cbv iota.
  destruct args as [|[] [|b args]]; reflexivity.
Qed.

Lemma print_u_len n : 0 <= n < 2 ^ 30 -> FmtModel.zlen (print_u 10 n) <= 10.
Proof.
  intros H. unfold print_u.
  assert (G : forall k fuel m acc, (0 < fuel)%nat -> 0 <= m < 10 ^ Z.of_nat (S k) ->
            (length (udigits fuel 10 m acc) <= length acc + S k)%nat).
  { induction k as [|k IH]; intros fuel m acc Hf Hm.
    - destruct fuel; [lia|]. cbn [udigits]. rewrite (Z.div_small m 10) by (change (10 ^ Z.of_nat 1) with 10 in Hm; lia).
      cbn [Z.eqb length]. lia.
    - destruct fuel as [|fuel]; [lia|]. cbn [udigits].
      destruct (m / 10 =? 0) eqn:E; [cbn [length]; lia|].
      destruct fuel as [|fuel]; [cbn [udigits length]; lia|].
      specialize (IH (S fuel) (m / 10) (digit_char (m mod 10) :: acc) ltac:(lia)).
      cbn [length] in IH. 
      assert (0 <= m / 10 < 10 ^ Z.of_nat (S k)).
      { split; [apply Z.div_pos; lia|]. apply Z.div_lt_upper_bound; [lia|]. rewrite <- Z.pow_succ_r by lia. rewrite <- Nat2Z.inj_succ. lia. }
      specialize (IH H0). lia. }
  specialize (G 9%nat 64%nat n [] ltac:(lia)). cbn [length] in G. unfold FmtModel.zlen.
  assert (0 <= n < 10 ^ Z.of_nat 10) by (change (10 ^ Z.of_nat 10) with 10000000000; lia). specialize (G H0). lia.
Qed.
Lemma decimal_len n : 0 <= n < 2 ^ 30 -> FmtModel.zlen (decimal n) <= 10.
Proof. intros H. unfold decimal, print_d. destruct (Z.ltb_spec n 0); [lia|]. now apply print_u_len. Qed.
End F.
