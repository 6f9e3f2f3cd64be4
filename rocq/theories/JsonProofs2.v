(** Escaping, unescaping and the scanners on the text that JSON.stringify writes. *)
From Coq Require Import ZArith List Bool Lia.
From Verif Require Import Bits UtfModel UtfSpec UtfProofs CodecModel TreeModel JsonModel JsonSpec JsonProofs NumProps NumJson.
From Verif Require NumModel NumSpec.
Import ListNotations.
Local Open Scope Z_scope.

Definition hexd (n : Z) : Z := at_ hex_digits (Z.to_nat n).
Definition hex4 (c : Z) : list Z := [hexd (c / 4096); hexd (c / 256 mod 16); hexd (c / 16 mod 16); hexd (c mod 16)].
Definition esc1 (c : Z) : list Z :=
  match json_special c with
  | Some d => [92; d]
  | None => if isprint c then [c] else 92 :: 117 :: hex4 c
  end.

Lemma hexd_ok : forall n, 0 <= n < 16 -> isxdigit (hexd n) = true /\ from_hex_char (hexd n) = n /\ hexd n <> 34 /\ hexd n <> 92.
Proof.
  intros n Hn. 
  assert (H : (isxdigit (hexd n) && (from_hex_char (hexd n) =? n) && negb (hexd n =? 34) && negb (hexd n =? 92)) = true).
  { revert n Hn. apply (range_forall 16 (fun n => isxdigit (hexd n) && (from_hex_char (hexd n) =? n) && negb (hexd n =? 34) && negb (hexd n =? 92))).
    vm_compute. reflexivity. }
  repeat (apply andb_true_iff in H as [H ?]). b2p. repeat split; auto; intros X; rewrite X in *; discriminate.
Qed.

Lemma encode6_utf8 : forall c r, bmp c -> utf_encode6 (utf8 c ++ r) = (92 :: 117 :: hex4 c, length (utf8 c)).
Proof.
  intros c r H. unfold bmp in H. unfold utf_encode6. rewrite decode_utf8 by (unfold codepoint; lia).
  unfold to_hex_char, hex4, hexd.
  assert (L15 : forall x, Z.land x 15 = x mod 16) by (intros; apply (land_pow2 x 4); lia).
  rewrite (land_shift_field c 12 4), (land_shift_field c 8 4), (land_shift_field c 4 4) by (auto; try lia; reflexivity).
  change (2 ^ 12) with 4096. change (2 ^ 8) with 256. change (2 ^ 4) with 16.
  rewrite !L15. do 2 f_equal.
  rewrite !Z.mod_mod by lia. rewrite (Z.mod_small (c / 4096)) by (Z.div_mod_to_equations; lia). reflexivity.
Qed.

Lemma escape_text : forall cs, Forall bmp cs -> forall fuel, (length (text cs) <= fuel)%nat ->
  escape fuel (text cs) = flat_map esc1 cs.
Proof.
  induction 1 as [|c cs Hc Hcs IH]; intros fuel HF.
  - destruct fuel; reflexivity.
  - cbn [flat_map text] in *. fold (text cs) in *. rewrite app_length in HF.
    pose proof (utf8_length c) as UL.
    destruct fuel as [|fuel]; [lia|]. 
    pose proof (encode6_utf8 c (text cs) Hc) as E6.
    destruct (utf8 c ++ text cs) as [|b r] eqn:UE; [destruct (utf8_nonempty _ _ UE)|].
    cbn [escape]. 
    destruct (Z_lt_ge_dec c 128) as [A|A].
    + assert (U1 : utf8 c = [c]). { unfold utf8. destruct (c <? 128) eqn:X; [auto|zb]. }
      rewrite U1 in UE. cbn [app] in UE. injection UE as <- <-.
      unfold esc1. destruct (json_special c) eqn:JS.
      * cbn [app]. do 2 f_equal. apply IH. lia.
      * destruct (isprint c); [cbn [app]; f_equal; apply IH; lia|].
        rewrite E6, U1. cbn [length skipn]. cbn [app]. rewrite IH by lia. reflexivity.
    + assert (B : b >= 0xc0 /\ json_special b = None /\ isprint b = false).
      { assert (b >= 0xc0).
        { assert (HB : b = hd 0 (utf8 c ++ text cs)) by (rewrite UE; reflexivity). unfold bmp in Hc. rewrite HB. unfold utf8. destruct (c <? 128) eqn:X; [zb|].
          destruct (c <? 2048); [|destruct (c <? 65536)]; cbn [app hd]; Z.div_mod_to_equations; lia. }
        split; auto. unfold json_special, isprint.
        repeat match goal with |- context [b =? ?k] => destruct (b =? k) eqn:?; [b2p; lia|] end. split; auto.
        destruct (b <? 127) eqn:X; [b2p; lia|]. apply andb_false_r. }
      destruct B as (_ & -> & ->). rewrite E6. rewrite <- UE, skipn_app_exact.
      rewrite IH by lia. f_equal.
      unfold esc1, json_special, isprint.
      repeat match goal with |- context [c =? ?k] => destruct (c =? k) eqn:?; [b2p; lia|] end.
      destruct (c <? 127) eqn:X; [b2p; lia|]. rewrite andb_false_r. reflexivity.
Qed.

Lemma quote_escape : forall fuel s, quote_body fuel s = escape fuel s.
Proof.
  induction fuel; intros [|c r]; auto. cbn [quote_body escape]. unfold json_special.
  destruct ((c =? 92) || (c =? 34)) eqn:A; [f_equal; f_equal; auto|].
  destruct (c =? 10) eqn:B1; [b2p; subst; cbn; do 2 f_equal; auto|].
  destruct (c =? 13) eqn:B2; [b2p; subst; cbn; do 2 f_equal; auto|].
  destruct (c =? 9) eqn:B3; [b2p; subst; cbn; do 2 f_equal; auto|].
  destruct (c =? 12) eqn:B4; [b2p; subst; cbn; do 2 f_equal; auto|].
  destruct (c =? 8) eqn:B5; [b2p; subst; cbn; do 2 f_equal; auto|].
  destruct (isprint c); cbn [negb]; [f_equal; auto|].
  destruct (utf_encode6 (c :: r)). rewrite IHfuel. auto.
Qed.

(** characters that need no escape *)
Lemma scan_plain : forall c r, c <> 34 -> c <> 92 -> str_scan (c :: r) = match str_scan r with inl n => inl (S n) | e => e end.
Proof.
  intros c r H1 H2. cbn [str_scan]. destruct (c =? 34) eqn:X; [b2p; congruence|].
  destruct (c =? 92) eqn:Y; [b2p; congruence|]. reflexivity.
Qed.

Lemma hex4_parts : forall c, bmp c ->
  0 <= c / 4096 < 16 /\ 0 <= c / 256 mod 16 < 16 /\ 0 <= c / 16 mod 16 < 16 /\ 0 <= c mod 16 < 16.
Proof. intros c H. unfold bmp in H. repeat split; Z.div_mod_to_equations; lia. Qed.

Lemma scan_esc1 : forall c r n, bmp c -> str_scan r = inl n -> str_scan (esc1 c ++ r) = inl (length (esc1 c) + n)%nat.
Proof.
  intros c r n Hc Hr. unfold esc1. destruct (json_special c) as [d|] eqn:JS.
  - assert (SE : simple_escape d = true).
    { unfold json_special in JS. unfold simple_escape.
      destruct ((c =? 92) || (c =? 34)) eqn:A.
      - injection JS as <-. apply orb_true_iff in A as [A|A]; rewrite A; rewrite ?orb_true_r; auto.
      - repeat (match type of JS with (if ?b then _ else _) = _ => destruct b end; [injection JS as <-; reflexivity|]). discriminate. }
    cbn [app]. cbn [str_scan]. change (92 =? 34) with false. change (92 =? 92) with true. cbn iota.
    rewrite SE. cbn [orb]. rewrite Hr. cbn [length]. auto.
  - destruct (isprint c) eqn:IP.
    + cbn [app]. assert (c <> 34 /\ c <> 92).
      { unfold json_special in JS. destruct ((c =? 92) || (c =? 34)) eqn:A; [discriminate|].
        apply orb_false_iff in A as [A B]. b2p. auto. }
      rewrite scan_plain by tauto. rewrite Hr. auto.
    + destruct (hex4_parts c Hc) as (P1 & P2 & P3 & P4).
      destruct (hexd_ok _ P1) as (X1 & _ & Q1 & R1). destruct (hexd_ok _ P2) as (X2 & _ & Q2 & R2).
      destruct (hexd_ok _ P3) as (X3 & _ & Q3 & R3). destruct (hexd_ok _ P4) as (X4 & _ & Q4 & R4).
      assert (Hh : str_scan (hex4 c ++ r) = inl (4 + n)%nat).
      { unfold hex4. cbn [app]. rewrite !scan_plain by auto. rewrite Hr. auto. }
      cbn [app]. remember (hex4 c ++ r) as rr. cbn [str_scan].
      change (92 =? 34) with false. change (92 =? 92) with true. change (simple_escape 117) with false.
      change (117 =? 117) with true. cbn iota. cbn [orb andb].
      rewrite Hh. subst rr. unfold hex4, at_. cbn [app nth]. rewrite X1, X2, X3, X4. cbn [andb length]. auto.
Qed.

Lemma scan_text : forall cs, Forall bmp cs -> forall r, str_scan (flat_map esc1 cs ++ 34 :: r) = inl (length (flat_map esc1 cs)).
Proof.
  induction 1 as [|c cs Hc Hcs IH]; intros r; [reflexivity|].
  cbn [flat_map]. rewrite <- app_assoc, app_length. apply scan_esc1; auto.
Qed.

Lemma unescape_esc1 : forall c r len fuel, bmp c -> 0 < len ->
  unescape (S fuel) (esc1 c ++ r) len = utf8 c ++ unescape fuel r (len - Z.of_nat (length (esc1 c))).
Proof.
  intros c r len fuel Hc HL. unfold esc1, unescape; fold unescape.
  destruct (len <=? 0) eqn:X; [b2p; lia|]. clear X.
  destruct (json_special c) as [d|] eqn:JS.
  - assert (U1 : utf8 c = [c] /\ unescape (S fuel) ([92; d] ++ r) len = c :: unescape fuel r (len - 2)).
    { unfold json_special in JS. cbn [unescape]. destruct (len <=? 0) eqn:X; [b2p; lia|].
      unfold at_. cbn [app nth skipn]. change (92 =? 92) with true. cbn iota.
      destruct ((c =? 92) || (c =? 34)) eqn:A.
      - injection JS as <-. apply orb_true_iff in A as [A|A]; b2p; subst; split; reflexivity.
      - repeat (match type of JS with (if ?b then _ else _) = _ => let E := fresh in destruct b eqn:E end;
          [injection JS as <-; b2p; subst; split; reflexivity|]). discriminate. }
    destruct U1 as [-> U2]. cbn [unescape] in U2. destruct (len <=? 0) eqn:X; [b2p; lia|].
    rewrite U2. reflexivity.
  - destruct (isprint c) eqn:IP.
    + assert (c <> 92).
      { unfold json_special in JS. destruct ((c =? 92) || (c =? 34)) eqn:A; [discriminate|].
        apply orb_false_iff in A as [A B]. b2p. auto. }
      unfold at_. cbn [app nth]. destruct (c =? 92) eqn:X; [b2p; congruence|]. cbn [skipn length].
      assert (U1 : utf8 c = [c]). { unfold isprint in IP. unfold utf8. destruct (c <? 128) eqn:Y; [auto|]. b2p. apply andb_true_iff in IP as [? ?]; b2p; lia. }
      rewrite U1. reflexivity.
    + destruct (hex4_parts c Hc) as (P1 & P2 & P3 & P4).
      destruct (hexd_ok _ P1) as (X1 & F1 & _). destruct (hexd_ok _ P2) as (X2 & F2 & _).
      destruct (hexd_ok _ P3) as (X3 & F3 & _). destruct (hexd_ok _ P4) as (X4 & F4 & _).
      unfold hex4. unfold at_ at 1 2. cbn [app nth]. 
      repeat match goal with |- context [?a =? ?b] => match a with 92 => idtac | 117 => idtac end; let v := eval vm_compute in (a =? b) in change (a =? b) with v end.
      cbn iota. unfold utf_decode4, at_. cbn [skipn nth]. rewrite X1, X2, X3, X4, F1, F2, F3, F4. cbn [andb].
      assert (EC : Z.shiftl (c / 4096) 12 + Z.shiftl (c / 256 mod 16) 8 + Z.shiftl (c / 16 mod 16) 4 + c mod 16 = c).
      { rewrite !shiftl_mul by lia. change (2 ^ 12) with 4096. change (2 ^ 8) with 256. change (2 ^ 4) with 16.
        Z.div_mod_to_equations; lia. }
      rewrite EC. cbn [length]. change (Z.of_nat 6) with 6. f_equal.
      unfold bmp in Hc. unfold utf8.
      change 0x80 with 128. change 0x800 with 2048. change 0x10000 with 65536. change 0xc0 with 192. change 0xe0 with 224. change 0x3f with 63.
      assert (L63 : forall x, Z.land x 63 = x mod 64) by (intros; apply (land_pow2 x 6); lia).
      destruct (c <? 128) eqn:Y1; [auto|]. b2p.
      destruct (c <? 2048) eqn:Y2; b2p.
      * rewrite !shiftr_div, L63 by lia. change (2 ^ 6) with 64.
        rewrite (lor_add 3 6) by (try lia; change (2 ^ 6) with 64; Z.div_mod_to_equations; lia).
        rewrite (lor_add 2 6) by (try lia; change (2 ^ 6) with 64; Z.div_mod_to_equations; lia). reflexivity.
      * destruct (c <? 65536) eqn:Y3; [|b2p; lia].
        rewrite !shiftr_div, !L63 by lia. change (2 ^ 6) with 64. change (2 ^ 12) with 4096.
        rewrite (lor_add 14 4) by (try lia; change (2 ^ 4) with 16; Z.div_mod_to_equations; lia).
        rewrite !(lor_add 2 6) by (try lia; change (2 ^ 6) with 64; Z.div_mod_to_equations; lia). reflexivity.
Qed.

Lemma unescape_text : forall cs, Forall bmp cs -> forall r fuel, (length (flat_map esc1 cs) < fuel)%nat ->
  unescape fuel (flat_map esc1 cs ++ r) (Z.of_nat (length (flat_map esc1 cs))) = text cs.
Proof.
  induction 1 as [|c cs Hc Hcs IH]; intros r fuel HF.
  - destruct fuel; [simpl in HF; lia|]. reflexivity.
  - cbn [flat_map text] in *. fold (text cs). rewrite app_length in *.
    assert (0 < length (esc1 c))%nat by (unfold esc1; destruct (json_special c); [|destruct (isprint c)]; simpl; lia).
    destruct fuel as [|fuel]; [lia|]. rewrite <- app_assoc, unescape_esc1 by (auto; lia). f_equal.
    replace (_ - _) with (Z.of_nat (length (flat_map esc1 cs))) by lia. apply IH. lia.
Qed.

(** ** Numbers *)
Lemma carried_text : forall dp x, carried dp x -> num_text (NumModel.num_to_json dp x) /\
  forall r, NumSpec.stop r -> NumModel.strtod (NumModel.num_to_json dp x ++ r) = Some (x, r).
Proof.
  intros dp x (v & (V & D & NZ & NV) & H). pose proof (normal_is x v D V NV) as NR. split; [apply num_json_text; auto|].
  intros r Hr. destruct H as [H|[(z & E & Hz)|(s & w & Hp & W & SD & Lo & Hi & ST)]].
  - apply (number_round_trip dp x r); auto.
  - assert (IT : NumModel.is_integer x = true).
    { destruct x as [s|s| |s m e]; cbn [NumSpec.value] in V; try discriminate; injection V as <-; [reflexivity|].
      apply (value_integer s m e z); auto. }
    apply (number_round_trip dp x r); auto.
  - destruct (digits_survive dp s w W Hp SD Lo Hi) as (x' & S1 & _ & _ & RT & _). rewrite ST in S1. injection S1 as <-.
    rewrite json_string_same by auto. apply RT; auto.
Qed.

Definition prim_char (c : Z) : Prop := 33 <= c < 127 /\ c <> 44 /\ c <> 58 /\ c <> 93 /\ c <> 125.
Lemma prim_scan_text : forall st t d r, Forall prim_char t -> d = 32 \/ d = 44 ->
  prim_scan st (t ++ d :: r) = inl (length t).
Proof.
  intros st t d r H Hd. induction H as [|c t Hc Ht IH].
  - cbn [app prim_scan]. destruct Hd as [-> | ->]; rewrite ?orb_true_r; cbn; rewrite ?orb_true_r; auto.
  - cbn [app prim_scan]. rewrite IH. destruct Hc as (C1 & C2 & C3 & C4 & C5).
    repeat match goal with |- context [c =? ?k] => destruct (c =? k) eqn:?; [b2p; lia|] end.
    rewrite andb_false_r. cbn [orb].
    assert (schar c = c) as ->. { unfold schar. destruct (c <? 128) eqn:X; [auto|b2p; lia]. }
    destruct (c <? 32) eqn:X; [b2p; lia|]. destruct (127 <=? c) eqn:Y; [b2p; lia|]. reflexivity.
Qed.
