(** * Proofs about the format command: fields in a text, and the whole format *)
From Coq Require Import ZArith List Bool Lia.
Import ListNotations.
Require Import Verif.UtfModel Verif.UtfSpec Verif.UtfProofs Verif.MiscSpec Verif.MiscModel Verif.MiscProofs.
Require Import Verif.FmtModel Verif.FmtSpec Verif.FmtProofs Verif.FmtProofs2.
Local Open Scope Z_scope.

Section F.
Context {FS : fsys}.
Notation A := (arg (num FS) (other FS)).

(* what can come after the number of a width or precision *)
Definition plain (c : Z) : Prop := 0 <= c < 128 /\ is_flag c = false /\ isdigit c = false /\ c <> 42.
Lemma conv_plain c : conv_char c -> plain c /\ c <> 46 /\ c <> 104 /\ c <> 108 /\ c <> 37.
Proof.
  intros (H1 & H2 & H3 & H4). cbn [In] in H4. split; [|lia].
  split; [lia|]. split; [|split; [|lia]].
  - destruct (is_flag c) eqn:E; [|reflexivity]. apply flag_is in E. contradiction.
  - unfold isdigit. destruct (Z.leb_spec 48 c), (Z.leb_spec c 57); auto. lia.
Qed.
Lemma mod_first m c r : In m [[]; [104]; [108]; [108; 108]] -> conv_char c ->
  exists c0 t0, m ++ c :: r = c0 :: t0 /\ plain c0 /\ c0 <> 46.
Proof.
  intros Hm Hc. destruct (conv_plain c Hc) as (HP & H46 & _).
  cbn [In] in Hm. destruct Hm as [<-|[<-|[<-|[<-|[]]]]]; cbn [app]; eexists; eexists; (split; [reflexivity|]).
  - auto.
  - split; [|lia]. repeat split; lia.
  - split; [|lia]. repeat split; lia.
  - split; [|lia]. repeat split; lia.
Qed.
Lemma mod_skip m c r : In m [[]; [104]; [108]; [108; 108]] -> conv_char c ->
  length_modifier (m ++ c :: r) = c :: r.
Proof.
  intros Hm Hc. destruct (conv_plain c Hc) as ((Hr & _) & _ & H104 & H108 & _).
  cbn [In] in Hm. destruct Hm as [<-|[<-|[<-|[<-|[]]]]]; cbn [app]; unfold length_modifier.
  - rewrite asc by lia. destruct (Z.eqb_spec c 104); [contradiction|]. destruct (Z.eqb_spec c 108); [contradiction|]. reflexivity.
  - rewrite asc by lia. reflexivity.
  - rewrite asc by lia. change (108 =? 104) with false. change (108 =? 108) with true. cbv iota. cbn [skipn]. rewrite asc by lia.
    destruct (Z.eqb_spec c 108); [contradiction|]. reflexivity.
  - rewrite asc by lia. change (108 =? 104) with false. change (108 =? 108) with true. cbv iota. cbn [skipn]. rewrite asc by lia.
    reflexivity.
Qed.
Lemma prec_first p ps m c r : spells_prec p ps -> In m [[]; [104]; [108]; [108; 108]] -> conv_char c ->
  exists c0 t0, ps ++ m ++ c :: r = c0 :: t0 /\ plain c0.
Proof.
  intros Hp Hm Hc. destruct (mod_first m c r Hm Hc) as (c0 & t0 & E & HP & _).
  inversion Hp; subst; cbn [app]; try (eexists; eexists; split; [reflexivity|repeat split; lia]).
  exists c0, t0. auto.
Qed.
Lemma width_first w ws c0 t0 : spells_width w ws -> plain c0 -> first_ok (ws ++ c0 :: t0).
Proof.
  intros Hw (H1 & H2 & _). inversion Hw as [|n s Hn Hh Hb|]; subst; cbn [app first_ok].
  - auto.
  - destruct (numeral_first _ _ _ Hn) as (c & s' & v & -> & Hd). apply digit10 in Hd. cbn [app hd] in *. split; [lia|].
    unfold is_flag. repeat match goal with |- context [c =? ?k] => destruct (Z.eqb_spec c k); [lia|] end. reflexivity.
  - split; [lia|reflexivity].
Qed.
Lemma plain_stopper c t : plain c -> stopper (c :: t).
Proof. intros (H1 & _ & H2 & _). split; auto. Qed.

(* the width *)
Lemma width_step w ws c0 t0 (args : list A) : spells_width w ws -> plain c0 -> args <> [] ->
  match width_of w args with
  | Some (wv, args1) =>
      (args1 = [] /\ number_or_star (FS := FS) (ws ++ c0 :: t0) args = None) \/
      (args1 <> [] /\ exists o, number_or_star (FS := FS) (ws ++ c0 :: t0) args = Some (o, c0 :: t0, args1) /\
       wv = match o with Some z => z | None => 0 end /\ (star (ws ++ c0 :: t0) = false -> 0 <= wv))
  | None => number_or_star (FS := FS) (ws ++ c0 :: t0) args = None
  end.
Proof.
  intros Hw Hc Ha. inversion Hw as [|n s Hn Hh Hb|]; subst; cbn [width_of app].
  - right. split; [exact Ha|]. exists None. destruct (nos_none (FS := FS) (c0 :: t0) args) as [E _]; [apply Hc|now apply plain_stopper|].
    rewrite E. split; [reflexivity|]. split; [reflexivity|lia].
  - right. split; [exact Ha|]. exists (Some n). destruct (nos_number (FS := FS) ws n (c0 :: t0) args Hn Hb (plain_stopper _ _ Hc)) as [E1 E2].
    rewrite E1. split; [reflexivity|]. split; [reflexivity|]. intros _. exact (numeral10_range _ _ Hn).
  - destruct (nos_star (FS := FS) (c0 :: t0) args) as [E1 E2]. rewrite E1, E2.
    destruct args as [|[s|n|o] [|b args]]; try reflexivity; [left; auto|].
    right. split; [discriminate|]. exists (Some (wide FS n)). split; [reflexivity|]. split; [reflexivity|discriminate].
Qed.
(* the precision *)
Lemma prec_step p ps c0 t0 (args : list A) : spells_prec p ps -> plain c0 -> c0 <> 46 -> args <> [] ->
  let s := ps ++ c0 :: t0 in
  let '(ch, step) := utf_to_unichar s in
  let '(dot, s3) := if ch =? 46 then (true, skipn step s) else (false, s) in
  match prec_of p args with
  | Some (pv, args1) =>
      (args1 = [] /\ number_or_star (FS := FS) s3 args = None) \/
      (args1 <> [] /\ exists o, number_or_star (FS := FS) s3 args = Some (o, c0 :: t0, args1) /\
       pv = if dot then Some (let z := match o with Some z => z | None => 0 end in if star s3 && (z <? 0) then 0 else z) else None)
  | None => number_or_star (FS := FS) s3 args = None
  end.
Proof.
  intros Hp Hc H46 Ha s.
  inversion Hp as [| |n t Hn Hb|]; subst; unfold s; cbn [app prec_of].
  - rewrite asc by (destruct Hc; lia). destruct (Z.eqb_spec c0 46); [contradiction|].
    right. split; [exact Ha|]. exists None. destruct (nos_none (FS := FS) (c0 :: t0) args) as [E _]; [apply Hc|now apply plain_stopper|].
    rewrite E. split; reflexivity.
  - rewrite asc by lia. change (46 =? 46) with true. cbv iota. cbn [skipn].
    right. split; [exact Ha|]. exists None. destruct (nos_none (FS := FS) (c0 :: t0) args) as [E S]; [apply Hc|now apply plain_stopper|].
    rewrite E, S. split; reflexivity.
  - rewrite asc by lia. change (46 =? 46) with true. cbv iota. cbn [skipn].
    right. split; [exact Ha|]. exists (Some n). destruct (nos_number (FS := FS) t n (c0 :: t0) args Hn Hb (plain_stopper _ _ Hc)) as [E1 E2].
    rewrite E1, E2. split; reflexivity.
  - rewrite asc by lia. change (46 =? 46) with true. cbv iota. cbn [skipn].
    destruct (nos_star (FS := FS) (c0 :: t0) args) as [E1 E2]. rewrite E1, E2.
    destruct args as [|[sx|n|o] [|b args]]; try reflexivity; [left; auto|].
    right. split; [discriminate|]. exists (Some (wide FS n)). split; [reflexivity|]. cbn [andb].
    f_equal. destruct (Z.ltb_spec (wide FS n) 0); lia.
Qed.

Lemma directive_field f ws ps r args size : printf_brief FS ->
  Forall flag_char (fflags f) -> spells_width (fwidth f) ws -> spells_prec (fprec f) ps ->
  In (fmod f) [[]; [104]; [108]; [108; 108]] -> conv_char (fconv f) ->
  small_field (FS := FS) f args -> 100 <= size ->
  match field_value f args with
  | Some (t, rest) => exists size', directive (fflags f ++ ws ++ ps ++ fmod f ++ fconv f :: r) args size = DNext t r rest size' /\ 100 <= size'
  | None => directive (FS := FS) (fflags f ++ ws ++ ps ++ fmod f ++ fconv f :: r) args size = DErr
  end.
Proof.
  intros HB HF Hw Hp Hm Hc (S1 & S2) Hs.
  assert (Ea : {args = []} + {args <> []}) by (destruct args; [left; reflexivity|right; discriminate]).
  destruct Ea as [->|Ha].
  { unfold field_value. destruct (fwidth f), (fprec f); reflexivity. }
  destruct (prec_first _ _ _ _ r Hp Hm Hc) as (c1 & t1 & E1 & P1).
  destruct (mod_first _ _ r Hm Hc) as (c2 & t2 & E2 & P2 & N2).
  unfold directive. destruct args as [|a0 args0] eqn:EA; [contradiction|]. rewrite <- EA in *. clear EA a0 args0.
  rewrite (flags_run (fflags f) 91).
  2: exact HF. 2: rewrite E1; eapply width_first; eassumption. 2: lia.
  2: { rewrite zlen_cons. change (FmtModel.zlen (@nil Z)) with 0. unfold FmtModel.zlen. lia. }
  cbv beta iota. rewrite E1. cbn [orb].
  pose proof (width_step _ _ c1 t1 args Hw P1 Ha) as HW.
  unfold field_value. destruct (width_of (fwidth f) args) as [[wv args1]|] eqn:EW.
  2: { rewrite HW. reflexivity. }
  destruct (S2 _ _ eq_refl) as [SW SP]. clear S2.
  destruct HW as [[-> HW]|(HA1 & o & HW & Hwv & Hst)].
  { rewrite HW. destruct (prec_of (fprec f) []) as [[pv args2]|] eqn:EP; [|reflexivity].
    destruct (fprec f); cbn in EP; try discriminate; injection EP as <- <-; reflexivity. }
  rewrite HW. rewrite <- Hwv.
  set (st := star (ws ++ c1 :: t1)) in *.
  set (neg := st && (wv <? 0)).
  assert (NEG : neg = (wv <? 0)).
  { unfold neg. destruct st; [reflexivity|]. cbn [andb]. symmetry. apply Z.ltb_ge. auto. }
  assert (WID : (if neg then to_long (- wv) else wv) = Z.abs wv).
  { rewrite NEG. destruct (Z.ltb_spec wv 0); [rewrite to_long_id; lia|lia]. }
  rewrite WID.
  rewrite <- E1, E2.
  pose proof (prec_step _ _ c2 t2 args1 Hp P2 N2 HA1) as HP. cbv zeta in HP. rewrite E2 in E1. 
  destruct (utf_to_unichar (ps ++ c2 :: t2)) as [ch3 step3].
  destruct (if ch3 =? 46 then (true, skipn step3 (ps ++ c2 :: t2)) else (false, ps ++ c2 :: t2)) as [dot s3].
  destruct (prec_of (fprec f) args1) as [[pv args2]|] eqn:EP.
  2: { rewrite HP. reflexivity. }
  destruct HP as [[-> HP]|(HA2 & o2 & HP & Hpv)].
  { rewrite HP. reflexivity. }
  rewrite HP. cbv zeta in Hpv |- *. rewrite <- Hpv.
  rewrite <- E2, mod_skip by assumption.
  destruct (conv_plain _ Hc) as ((Hcr & _) & _). rewrite asc by lia.
  destruct args2 as [|v rest]; [contradiction|].
  cbn [skipn].
  assert (SPV : prec_ok pv).
  { destruct pv as [p|]; [|exact Logic.I]. cbn. split; [|exact (SP _ _ eq_refl)].
    destruct (fprec f); cbn in EP; try discriminate.
    - injection EP as <- _. lia.
    - injection EP as <- _. inversion Hp; subst. exact (numeral10_range _ _ H0).
    - destruct args1 as [|[| |] ?]; try discriminate. injection EP as <- _. lia. }
  set (fl := fflags f ++ (if neg && negb (is_in 45 (fflags f)) then [45] else [])).
  assert (EFL : (if neg && negb (is_in 45 (fflags f)) then ([37] ++ fflags f) ++ [45] else [37] ++ fflags f) = 37 :: fl).
  { unfold fl. destruct (neg && negb (is_in 45 (fflags f))); cbn [app]; [reflexivity|]. now rewrite app_nil_r. }
  rewrite EFL.
  assert (LFL : (length fl <= 71)%nat).
  { unfold fl. rewrite app_length. destruct (neg && negb (is_in 45 (fflags f))); cbn [length]; lia. }
  assert (FFL : Forall flag_char fl).
  { unfold fl. apply Forall_app. split; [exact HF|]. destruct (neg && negb (is_in 45 (fflags f))); [|constructor].
    constructor; [left; reflexivity|constructor]. }
  pose proof (convert_text fl (Z.abs wv) neg pv f v size HB FFL LFL ltac:(lia) SPV Hs Hc eq_refl) as HC.
  cbv zeta in HC.
  assert (EV : (if neg then - Z.abs wv else Z.abs wv) = wv) by (rewrite NEG; destruct (Z.ltb_spec wv 0); lia).
  rewrite EV in HC.
  assert (HN : neg = true -> 0 < Z.abs wv) by (rewrite NEG; intros H; apply Z.ltb_lt in H; lia).
  destruct (text_of f wv pv v) as [t|].
  - destruct (HC HN) as (size' & HX & HS'). rewrite HX. exists size'. split; [|exact HS'].
    f_equal. unfold padded, pad_to, left_aligned. rewrite NEG. reflexivity.
  - rewrite (HC HN). reflexivity.
Qed.

Lemma utf8_ne c : utf8 c <> [].
Proof. unfold utf8. repeat match goal with |- context [if ?b then _ else _] => destruct b end; discriminate. Qed.

Lemma loop_text cs : forall n r lit out (args : list A) size, Forall (fun c => codepoint c /\ c <> 37) cs ->
  (length (flat_map utf8 cs ++ r) < n)%nat ->
  exists n', (length r < n')%nat /\
  loop n (flat_map utf8 cs ++ r) lit out args size = loop n' r (lit ++ flat_map utf8 cs) out args size.
Proof.
  induction cs as [|c cs IH]; intros n r lit out args size HF Hn; cbn [flat_map app].
  - exists n. split; [exact Hn|]. now rewrite app_nil_r.
  - inversion HF as [|? ? [Hc Hne] HF']; subst. destruct n as [|n]; [lia|].
    cbn [flat_map] in Hn. rewrite <- app_assoc in *. rewrite app_length in Hn.
    assert (length (utf8 c) <> 0)%nat by (pose proof (utf8_ne c); destruct (utf8 c); cbn; congruence).
    cbn [loop]. destruct (utf8 c ++ flat_map utf8 cs ++ r) as [|x y] eqn:E.
    { apply app_eq_nil in E. destruct E as [E _]. now apply utf8_ne in E. }
    rewrite <- E. rewrite decode_utf8 by assumption. destruct (Z.eqb_spec c 37); [contradiction|]. cbn [negb].
    rewrite skipn_app, skipn_all, Nat.sub_diag. cbn [skipn app].
    rewrite firstn_app, firstn_all, Nat.sub_diag. cbn [firstn]. rewrite app_nil_r.
    destruct (IH n r (lit ++ utf8 c) out args size HF' ltac:(lia)) as (n' & Hn' & E').
    exists n'. split; [exact Hn'|]. rewrite E'. now rewrite <- app_assoc.
Qed.

Theorem loop_meaning : printf_brief FS -> forall ps s, spells_all ps s ->
  forall n lit out (args : list A) size, (length s < n)%nat -> 100 <= size -> small ps args ->
  loop n s lit out args size =
  match meaning ps args with Some o => FOk (out ++ lit ++ o) | None => FErr end.
Proof.
  intros HB ps s HS. induction HS as [|p ps s r Hp HS IH]; intros n lit out args size Hn Hs Hsm.
  - destruct n; [lia|]. cbn [loop meaning]. now rewrite app_nil_r.
  - destruct Hp as [cs HF| |f ws pt HF Hw Hpr Hm Hc].
    + destruct (loop_text cs n r lit out args size HF Hn) as (n' & Hn' & ->).
      cbn [meaning]. cbn [small] in Hsm. rewrite (IH n' _ out args size Hn' Hs Hsm).
      destruct (meaning ps args); cbn [option_map]; [now rewrite <- !app_assoc|reflexivity].
    + cbn [app] in *. destruct n as [|n]; [lia|]. cbn [loop]. rewrite asc by lia. change (37 =? 37) with true. cbn [negb skipn].
      rewrite asc by lia. change (37 =? 37) with true. cbv iota. cbn [skipn firstn].
      cbn [meaning]. cbn [small] in Hsm. cbn [length] in Hn. rewrite (IH n _ _ args size ltac:(lia) Hs Hsm).
      destruct (meaning ps args); cbn [option_map app]; [now rewrite <- !app_assoc|reflexivity].
    + destruct n as [|n]; [lia|].
      assert (EX : (37 :: fflags f ++ ws ++ pt ++ fmod f ++ [fconv f]) ++ r = 37 :: fflags f ++ ws ++ pt ++ fmod f ++ fconv f :: r).
      { cbn [app]. f_equal. repeat (rewrite <- app_assoc; f_equal). }
      rewrite EX in *. cbn [loop]. rewrite asc by lia. change (37 =? 37) with true. cbn [negb skipn].
      assert (N37 : exists c0 t0, fflags f ++ ws ++ pt ++ fmod f ++ fconv f :: r = c0 :: t0 /\ c0 < 192 /\ c0 <> 37).
      { destruct (fflags f) as [|c0 fl].
        - cbn [app]. destruct (conv_plain _ Hc) as (_ & _ & _ & _ & NC).
          destruct Hw as [|n0 w0 Hn0 _ _|]; cbn [app].
          + destruct Hpr; cbn [app]; try (eexists; eexists; split; [reflexivity|lia]).
            cbn [In] in Hm. destruct Hm as [E|[E|[E|[E|[]]]]]; rewrite <- E; cbn [app]; eexists; eexists; (split; [reflexivity|]).
            { destruct (conv_plain _ Hc) as ((HH & _) & _). lia. } all: lia.
          + destruct (numeral_first _ _ _ Hn0) as (c0 & s' & v & -> & Hd). apply digit10 in Hd. cbn [app].
            eexists; eexists; split; [reflexivity|lia].
          + eexists; eexists; split; [reflexivity|lia].
        - inversion HF as [|? ? HF1 _]; subst. cbn [app]. exists c0. eexists. split; [reflexivity|]. unfold flag_char in HF1. cbn [In] in HF1. lia. }
      destruct N37 as (c0 & t0 & E0 & L0 & N0).
      cbn [small] in Hsm. destruct Hsm as [Hsf Hrest].
      pose proof (directive_field f ws pt r args size HB HF Hw Hpr Hm Hc Hsf Hs) as HD.
      rewrite E0 in *. rewrite asc by assumption. destruct (Z.eqb_spec c0 37); [contradiction|].
      cbn [meaning]. destruct (field_value f args) as [[t rest]|].
      * destruct HD as (size' & HD & HS'). rewrite HD.
        assert (LR : (length r < n)%nat).
        { assert (LL : length (c0 :: t0) = length (fflags f ++ ws ++ pt ++ fmod f ++ fconv f :: r)) by now rewrite E0.
          rewrite !app_length in LL. cbn [length] in LL, Hn. lia. }
        rewrite (IH n [] _ rest size' LR HS' (Hrest _ _ eq_refl)).
        destruct (meaning ps rest); cbn [option_map app]; [now rewrite <- !app_assoc|reflexivity].
      * rewrite HD. reflexivity.
Qed.
End F.
