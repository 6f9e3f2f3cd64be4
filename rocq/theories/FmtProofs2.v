(** * Proofs about the format command: one field, and the whole format *)
From Coq Require Import ZArith List Bool Lia.
Import ListNotations.
Require Import Verif.UtfModel Verif.UtfSpec Verif.UtfProofs Verif.MiscSpec Verif.MiscModel Verif.MiscProofs.
Require Import Verif.FmtModel Verif.FmtSpec Verif.FmtProofs.
Local Open Scope Z_scope.

Section F.
Context {FS : fsys}.
Notation A := (arg (num FS) (other FS)).

Lemma to_int_id n : - 2 ^ 31 <= n < 2 ^ 31 -> to_int n = n.
Proof. intros H. unfold to_int. rewrite Z.mod_small; lia. Qed.
Lemma to_long_id n : - 2 ^ 63 <= n < 2 ^ 63 -> to_long n = n.
Proof. intros H. unfold to_long. rewrite Z.mod_small; lia. Qed.

Lemma is_in_spec c l : is_in c l = true <-> In c l.
Proof.
  unfold is_in. rewrite existsb_exists. split.
  - intros (x & Hx & E). apply Z.eqb_eq in E. now subst.
  - intros H. exists c. split; [exact H|apply Z.eqb_refl].
Qed.
Lemma is_double_in c : is_double c = is_in c floats.
Proof.
  unfold is_double, is_in, floats. cbn [existsb].
  repeat match goal with |- context [c =? ?k] => destruct (c =? k) end; reflexivity.
Qed.
Lemma is_integer_in c : c <> 105 -> is_integer c = is_in c integers.
Proof.
  intros H. unfold is_integer, is_in, integers. cbn [existsb]. destruct (Z.eqb_spec c 105); [contradiction|].
  repeat match goal with |- context [c =? ?k] => destruct (c =? k) end; reflexivity.
Qed.

Lemma cut_firstn p t : match p with Some p => 0 <= p | None => True end ->
  cut p t = match p with Some p => firstn (Z.to_nat p) t | None => t end.
Proof.
  destruct p as [p|]; [|reflexivity]. intros Hp. unfold cut. destruct (Z.ltb_spec p (FmtModel.zlen t)); [reflexivity|].
  symmetry. apply firstn_all2. unfold FmtModel.zlen in H. lia.
Qed.

Definition prec_ok (p : option Z) : Prop := match p with Some p => 0 <= p < 2 ^ 30 | None => True end.

(** A number: what printf prints for the directive, whole. *)
Lemma number_text fl w p c n size : printf_brief FS -> Forall flag_char fl -> (length fl <= 71)%nat -> 0 <= w < 2 ^ 30 -> prec_ok p ->
  100 <= size -> is_in c floats || is_in c integers = true ->
  let ch := if c =? 105 then 100 else c in
  exists size', number (FS := FS) (37 :: fl) w p (is_double ch) ch n size =
    Some (printf FS (printf_directive fl w p c) n, size') /\ 100 <= size'.
Proof.
  intros HB HFC Hfl Hw Hp Hs Hc ch. unfold number.
  assert (D : is_double ch = is_in c floats).
  { unfold ch. destruct (Z.eqb_spec c 105) as [->|]; [reflexivity|apply is_double_in]. }
  rewrite D.
  match goal with |- context [printf FS ?d n] => assert (E : d = printf_directive fl w p c) end.
  { unfold printf_directive, decimal. cbn [app]. f_equal. f_equal. f_equal. f_equal.
    unfold ch. destruct (is_in c floats) eqn:F; cbn [app].
    - destruct (Z.eqb_spec c 105) as [->|]; [discriminate|reflexivity].
    - reflexivity. }
  rewrite E.
  assert (L1 : FmtModel.zlen (if w =? 0 then [] else decimal w) <= 10).
  { destruct (w =? 0); [cbn; lia|]. now apply decimal_len. }
  assert (L2 : FmtModel.zlen (match p with Some p => 46 :: decimal p | None => [] end) <= 11).
  { destruct p as [p|]; [|cbn; lia]. rewrite zlen_cons. pose proof (decimal_len p Hp). lia. }
  assert (L : FmtModel.zlen (printf_directive fl w p c) <= 96).
  { unfold printf_directive. rewrite zlen_cons, !zlen_app. 
    assert (FmtModel.zlen fl <= 71) by (unfold FmtModel.zlen; lia).
    destruct (is_in c floats); rewrite ?zlen_cons; change (FmtModel.zlen (@nil Z)) with 0; lia. }
  destruct (Z.ltb_spec 100 (FmtModel.zlen (printf_directive fl w p c) + 1)); [lia|].
  set (len0 := if is_in c floats then 320 else 24).
  set (len1 := if len0 <? w then to_int w else len0).
  assert (E1 : len1 = Z.max w len0).
  { unfold len1. destruct (Z.ltb_spec len0 w); [rewrite to_int_id; lia|lia]. }
  assert (B1 : 24 <= len1 < 2 ^ 30).
  { rewrite E1. assert (24 <= len0 <= 320) by (unfold len0; destruct (is_in c floats); lia). lia. }
  set (len2 := match p with Some p0 => to_int (len1 + p0) | None => len1 end).
  set (pv := match p with Some p0 => p0 | None => 0 end).
  assert (E2 : len2 = len1 + pv).
  { unfold len2, pv. destruct p as [p|]; [|lia]. cbn in Hp. rewrite to_int_id; lia. }
  assert (BP : 0 <= pv < 2 ^ 30) by (unfold pv; destruct p; cbn in Hp; lia).
  rewrite (to_int_id (len2 + 1)) by lia.
  set (size1 := if size <? len2 + 1 then len2 + 1 else size).
  assert (S1 : 100 <= size1 /\ len2 + 1 <= size1) by (unfold size1; destruct (Z.ltb_spec size (len2 + 1)); lia).
  destruct (Z.ltb_spec (len2 + 1) 0); [lia|].
  assert (HL := HB fl w p c n HFC (proj1 Hw)).
  assert (HQ : forall p', p = Some p' -> 0 <= p') by (intros p' EP; rewrite EP in Hp; cbn in Hp; lia).
  assert (HI : In c (floats ++ integers)) by (apply in_or_app; rewrite orb_true_iff, !is_in_spec in Hc; exact Hc).
  specialize (HL HQ HI). fold len0 pv in HL. rewrite <- E1, <- E2 in HL.
  rewrite firstn_all2 by lia.
  destruct (Z.ltb_spec size1 (FmtModel.zlen (printf FS (printf_directive fl w p c) n) + 1)) as [L'|L'].
  - unfold FmtModel.zlen in L'. lia.
  - exists size1. split; [reflexivity|lia].
Qed.

(** One field. *)
Lemma convert_text fl w neg p f v size : printf_brief FS -> Forall flag_char fl ->
  (length fl <= 71)%nat -> 0 <= w < 2 ^ 30 -> prec_ok p -> 100 <= size -> conv_char (fconv f) ->
  fl = fflags f ++ (if neg && negb (is_in 45 (fflags f)) then [45] else []) ->
  let ch := if fconv f =? 105 then 100 else fconv f in
  match text_of (FS := FS) f (if neg then - w else w) p v with
  | Some t => (neg = true -> 0 < w) -> exists size', convert (37 :: fl) w p ch v size =
                CText t (if fconv f =? 67 then 1 else Z.of_nat (length t)) size' /\ 100 <= size'
  | None => (neg = true -> 0 < w) -> convert (37 :: fl) w p ch v size = CErr
  end.
Proof.
  intros HB HFC Hfl Hw Hp Hs Hcc Efl ch.
  assert (HP0 : match p with Some p => 0 <= p | None => True end) by (destruct p; cbn in Hp; [lia|exact Logic.I]).
  assert (LS : FmtModel.zlen (37 :: fl) + FmtModel.zlen (if w =? 0 then [] else print_d w) +
               FmtModel.zlen (match p with Some p => 46 :: print_d p | None => [] end) + 1 <= 100).
  { rewrite zlen_cons. assert (FmtModel.zlen fl <= 71) by (unfold FmtModel.zlen; lia).
    assert (FmtModel.zlen (if w =? 0 then [] else print_d w) <= 10).
    { destruct (w =? 0); [cbn; lia|]. now apply decimal_len. }
    assert (FmtModel.zlen (match p with Some p => 46 :: print_d p | None => [] end) <= 11).
    { destruct p as [p|]; [|cbn; lia]. rewrite zlen_cons. pose proof (decimal_len p Hp) as D. unfold decimal in D. lia. }
    lia. }
  assert (C0 : ch <> 0) by (unfold ch; destruct Hcc as ((? & ?) & _); destruct (fconv f =? 105); lia).
  unfold text_of, convert. fold ch.
  set (cv := fconv f) in *.
  destruct (Z.eqb_spec ch 0) as [|_]; [contradiction|].
  assert (CH : forall k, k <> 105 -> k <> 100 -> (ch =? k) = (cv =? k)).
  { intros k H1 H2. unfold ch. destruct (Z.eqb_spec cv 105) as [E|]; [|reflexivity].
    rewrite E. destruct (Z.eqb_spec 100 k), (Z.eqb_spec 105 k); auto; lia. }
  rewrite (CH 113), (CH 83), (CH 115), (CH 99), (CH 67) by lia.
  destruct (Z.eqb_spec cv 115) as [E|N115].
  { assert (cv =? 113 = false) as -> by (apply Z.eqb_neq; lia). assert (cv =? 83 = false) as -> by (apply Z.eqb_neq; lia).
    assert (cv =? 67 = false) as -> by (apply Z.eqb_neq; lia).
    destruct v; try reflexivity. rewrite (cut_firstn p s HP0). intros _. eexists. split; [reflexivity|exact Hs]. }
  destruct (Z.eqb_spec cv 83) as [E|N83].
  { assert (cv =? 113 = false) as -> by (apply Z.eqb_neq; lia). assert (cv =? 67 = false) as -> by (apply Z.eqb_neq; lia).
    rewrite (cut_firstn p _ HP0). intros _. eexists. split; [reflexivity|exact Hs]. }
  destruct (Z.eqb_spec cv 113) as [E|N113].
  { assert (cv =? 67 = false) as -> by (apply Z.eqb_neq; lia).
    destruct v; rewrite (cut_firstn p _ HP0); intros _; eexists; (split; [reflexivity|exact Hs]). }
  destruct ((cv =? 99) || (cv =? 67)) eqn:E67.
  { destruct v as [s|n|o].
    - destruct s as [|b [|b' s]]; cbn [length Nat.eqb]; try reflexivity.
      intros _. exists size. split; [|exact Hs]. destruct (cv =? 67); reflexivity.
    - destruct (Z.leb_spec 0 (wide FS n)), (Z.leb_spec (wide FS n) 255); cbn [andb].
      + destruct (Z.ltb_spec (wide FS n) 0); [lia|]. destruct (Z.ltb_spec 255 (wide FS n)); [lia|]. cbn [orb].
        intros _. exists size. split; [|exact Hs]. destruct (cv =? 67); [|reflexivity].
        rewrite encode_utf8; [reflexivity|]. unfold codepoint. lia.
      + destruct (Z.ltb_spec (wide FS n) 0); [lia|]. destruct (Z.ltb_spec 255 (wide FS n)); [|lia]. reflexivity.
      + destruct (Z.ltb_spec (wide FS n) 0); [|lia]. reflexivity.
      + destruct (Z.ltb_spec (wide FS n) 0); [|lia]. reflexivity.
    - reflexivity. }
  assert (cv =? 67 = false) as -> by (apply orb_false_iff in E67; tauto).
  assert (DI : is_double ch || is_integer ch = is_in cv floats || is_in cv integers).
  { unfold ch. destruct (Z.eqb_spec cv 105) as [->|N]; [reflexivity|]. now rewrite is_double_in, is_integer_in. }
  rewrite DI. destruct (is_in cv floats || is_in cv integers) eqn:EN.
  - match goal with |- context [100 <? ?z] => destruct (Z.ltb_spec 100 z) as [L|L] end; [lia|].
    destruct v as [s|n|o]; try reflexivity. intros Hneg.
    assert (EW : Z.abs (if neg then - w else w) = w) by (destruct neg; lia).
    assert (EN' : ((if neg then - w else w) <? 0) = neg).
    { destruct neg; [apply Z.ltb_lt; specialize (Hneg eq_refl); lia|apply Z.ltb_ge; lia]. }
    rewrite EW, EN', <- Efl.
    destruct (number_text fl w p cv n size HB HFC Hfl Hw Hp Hs EN) as (size' & H & HS). fold ch in H. cbn zeta in H.
    fold ch in H. rewrite H. exists size'. split; [reflexivity|exact HS].
  - destruct (Z.ltb_spec 100 (FmtModel.zlen (37 :: fl) + 1 + 25 + 1)) as [L|L].
    + rewrite zlen_cons in L. unfold FmtModel.zlen in L. lia.
    + reflexivity.
Qed.
End F.
