(** Properties C13 (base64), C14 (URI escaping), C18 (CRC-32), C44 (hex). *)
From Coq Require Import ZArith List Bool Lia.
Import ListNotations.
From Verif Require Import Bits UtfModel CodecModel CodecSpec CodecProofs.
Local Open Scope Z_scope.

(** * C13: base64 *)
(** The encoder never fails (no overrun of its line buffer) and produces the RFC 4648 text with a
    newline after every 72 characters. *)
Theorem base64_encode_is_rfc4648 : forall s, bytes s ->
  exists o, b64_encode s = Some o /\ lines72 (rfc4648 s) o.
Proof. intros s H. apply (enc_loop_ok (S (length s)) s []); auto; simpl; try lia. exists O; auto. Qed.

Theorem base64_alphabet : forall s o, bytes s -> b64_encode s = Some o ->
  Forall (fun c => b64_alpha c \/ c = 61 \/ c = 10) o.
Proof.
  intros s o H E. destruct (base64_encode_is_rfc4648 s H) as (o' & E' & L).
  rewrite E in E'; injection E' as <-. pose proof (rfc_alpha s H) as A. clear E H. induction L.
  - eapply Forall_impl; [|exact A]. simpl; intuition.
  - apply Forall_app in A. destruct A. apply Forall_app. split.
    + eapply Forall_impl; [|eassumption]. simpl; intuition.
    + constructor; auto.
Qed.

Theorem base64_length : forall s o, bytes s -> b64_encode s = Some o ->
  let n := (4 * ((length s + 2) / 3))%nat in (length o = n + n / 72)%nat.
Proof.
  intros s o H E. destruct (base64_encode_is_rfc4648 s H) as (o' & E' & L).
  rewrite E in E'; injection E' as <-. cbv zeta. rewrite <- rfc_length. apply lines72_length; auto.
Qed.

(** Decoding undoes encoding ... *)
Theorem base64_roundtrip : forall s, bytes s ->
  exists o, b64_encode s = Some o /\ b64_decode o = Some s.
Proof.
  intros s H. destruct (base64_encode_is_rfc4648 s H) as (o & E & L). exists o. split; auto.
  apply (dec_loop_ok (length o)); auto. apply lines72_inter; auto.
Qed.
(** ... also for the text of another encoder, with line breaks, blanks or other characters
    outside the alphabet put in anywhere. *)
Theorem base64_decode_tolerant : forall s t, bytes s -> interspersed (rfc4648 s) t -> b64_decode t = Some s.
Proof. intros s t H I. apply (dec_loop_ok (length t)); auto. Qed.
(** The decoder terminates on every input. *)
Theorem base64_decode_total : forall t, exists o, b64_decode t = Some o.
Proof. intros t. apply dec_total. lia. Qed.

Example base64_ex : b64_encode [72; 105; 255; 0] = Some [83;71;110;47;65;65;61;61] /\
  b64_decode [83;71;10;110;47;32;65;65;61;61] = Some [72; 105; 255; 0].
Proof. split; reflexivity. Qed.

(** * C18: CRC-32 *)
Theorem crc32_is_crc32 : forall c s, bytes s ->
  crc32 c s = 0xffffffff - crc_bitserial (0xffffffff - c) s.
Proof. intros c s H. unfold crc32, not32. rewrite crc_fold_serial by auto. reflexivity. Qed.
Theorem crc32_incremental : forall c s t, crc32 c (s ++ t) = crc32 (crc32 c s) t.
Proof.
  intros. unfold crc32, not32. rewrite fold_left_app. f_equal. f_equal. lia.
Qed.
(** The published check value of this CRC: "123456789" *)
Example crc32_check : crc32 0 [49;50;51;52;53;54;55;56;57] = 0xCBF43926. Proof. reflexivity. Qed.
Lemma crc_step_range : forall c b, 0 <= c < 2 ^ 32 -> 0 <= crc_bit c b < 2 ^ 32.
Proof.
  intros c b H. assert (D : 0 <= c / 2 < 2 ^ 32) by (change (2 ^ 32) with 4294967296 in *; Z.div_mod_to_equations; lia).
  unfold crc_bit. destruct (_ =? 1); auto.
  assert (N : 0 <= Z.lxor (c / 2) 3988292384) by (apply Z.lxor_nonneg; lia).
  split; auto. destruct (Z.eq_dec (Z.lxor (c / 2) 3988292384) 0) as [E|E]; [rewrite E; lia|].
  apply Z.log2_lt_pow2; [lia|]. eapply Z.le_lt_trans; [apply Z.log2_lxor; lia|].
  apply Z.max_lub_lt; [|reflexivity].
  destruct (Z.eq_dec (c / 2) 0) as [E0|E0]; [rewrite E0; reflexivity|]. apply Z.log2_lt_pow2; lia.
Qed.
(** The value stays a 32-bit number. *)
Theorem crc32_range : forall c s, bytes s -> 0 <= c < 2 ^ 32 -> 0 <= crc32 c s < 2 ^ 32.
Proof.
  intros c s H HC. rewrite crc32_is_crc32 by auto.
  assert (R : forall l x, 0 <= x < 2 ^ 32 -> 0 <= fold_left crc_bit l x < 2 ^ 32).
  { induction l; intros; simpl; auto. apply IHl. apply crc_step_range; auto. }
  specialize (R (flat_map byte_bits s) (4294967295 - c)). unfold crc_bitserial.
  change (2 ^ 32) with 4294967296 in *. lia.
Qed.

(** * C44: hex *)
Lemma hexchar_ok : forall v, 0 <= v < 16 -> at_ hex_digits (Z.to_nat v) = hexchar v.
Proof.
  intros v Hv. apply Z.eqb_eq. revert v Hv.
  apply (range_forall 16 (fun v => at_ hex_digits (Z.to_nat v) =? hexchar v)). vm_compute; reflexivity.
Qed.
Lemma from_hexchar : forall v, 0 <= v < 16 -> from_hex_char (hexchar v) = v.
Proof.
  intros v Hv. apply Z.eqb_eq. revert v Hv.
  apply (range_forall 16 (fun v => from_hex_char (hexchar v) =? v)). vm_compute; reflexivity.
Qed.
(** jsi_ToHexStr writes the hexadecimal text ... *)
Theorem to_hex_is_hex : forall s, bytes s -> to_hex_str s = hex s.
Proof.
  induction s as [|b s IH]; intros H; [reflexivity|]. inversion H as [|? ? Hb Hs]; subst.
  cbn [to_hex_str hex flat_map]. f_equal; [|exact (IH Hs)].
  unfold byte in Hb. change 15 with (2 ^ 4 - 1). rewrite !land_pow2, shiftr_div by lia. change (2 ^ 4) with 16.
  rewrite !hexchar_ok by (Z.div_mod_to_equations; lia).
  replace ((b / 16) mod 16) with (b / 16) by (Z.div_mod_to_equations; lia). reflexivity.
Qed.
(** ... and reading two of its digits back gives the byte (as url_decode and jsi_FromHexStr compute it). *)
Lemma hex_pair_back : forall b, byte b ->
  to_byte (Z.lor (Z.shiftl (from_hex_char (hexchar (b / 16))) 4) (from_hex_char (hexchar (b mod 16)))) = b.
Proof.
  intros b Hb. unfold byte in Hb. rewrite !from_hexchar by (Z.div_mod_to_equations; lia).
  rewrite shiftl_mul, lor_add by (try lia; change (2 ^ 4) with 16; Z.div_mod_to_equations; lia).
  unfold to_byte. change (2 ^ 4) with 16. Z.div_mod_to_equations; lia.
Qed.
(** But the round trip does not hold: the decoder rejects every string of two or more characters
    whose first two are not NUL ... *)
Theorem from_hex_rejects_everything_refuted : forall c d r, c <> 0 -> d <> 0 -> from_hex_str (c :: d :: r) = None.
Proof.
  intros c d r Hc Hd. cbn [from_hex_str].
  destruct (c =? 0) eqn:E1; b2p; [congruence|]. destruct (d =? 0) eqn:E2; b2p; [congruence|].
  cbn [orb]. destruct (isxdigit c); reflexivity.
Qed.
(** ... the command never returns anything but the empty string, in either direction ... *)
Theorem hexstr_command_is_never_right_refuted : forall s d, s <> [] ->
  sys_hexstr s d <> Some (hex s) /\ forall t, t <> [] -> sys_hexstr (hex t) d <> Some t.
Proof.
  intros s d NE. unfold sys_hexstr. split.
  - destruct (hex_str s d); try congruence. destruct s; [congruence|]. discriminate.
  - intros t NT. destruct (hex_str (hex t) d); congruence.
Qed.
(** ... and with its 'decode' argument it writes past the end of its buffer for long input. *)
Theorem hexstr_decode_overflows_refuted : forall s, (200 <= length s)%nat -> hex_str s true = HexOverflow.
Proof.
  intros s H. unfold hex_str. cbv zeta. cbn [negb].
  assert (L : length (to_hex_str s) = (2 * length s)%nat) by (clear; induction s; simpl in *; lia).
  rewrite L. unfold ds_storage.
  replace (_ <=? _) with false; auto. symmetry. apply Z.leb_gt.
  destruct (_ <? 200) eqn:E; b2p; rewrite Nat2Z.inj_mul; Z.div_mod_to_equations; lia.
Qed.

(** * C14: URI escaping *)
Lemma url_enc1_cases : forall comp c, 0 < c < 256 ->
  (url_enc1 comp c = [c] /\ (isalnum c = true \/ (strchr ncomps c = false /\ (comp = false \/ strchr comps c = false)))) \/
  (url_enc1 comp c = [37; hexchar (c / 16); hexchar (c mod 16)] /\ isalnum c = false /\
   (strchr ncomps c = true \/ (comp = true /\ strchr comps c = true))).
Proof.
  intros comp c Hc. unfold url_enc1.
  destruct (isalnum c) eqn:A; [left; auto|]. cbn [orb].
  destruct (strchr ncomps c) eqn:N, comp, (strchr comps c) eqn:K; cbn [negb andb orb]; try (left; auto; fail).
  all: right; (split; [|auto]).
  all: assert (C : c =? 32 = false) by
    (apply Z.eqb_neq; intros ->; vm_compute in N, K; congruence); rewrite C.
  all: assert (S : schar c = c) by
    (unfold schar; destruct (c <? 128) eqn:Q; auto; b2p; exfalso;
     assert (T : negb (strchr ncomps c) && negb (strchr comps c) || (c <? 128) = true) by
       (assert (R : 0 <= c < Z.of_nat 256) by lia; revert R; generalize c;
        apply (range_forall 256 (fun c => negb (strchr ncomps c) && negb (strchr comps c) || (c <? 128))); vm_compute; reflexivity);
     rewrite N, K in T; cbn in T; b2p; lia).
  all: rewrite S; unfold to_hex_char; change 15 with (2 ^ 4 - 1);
    rewrite !land_pow2, shiftr_div by lia; change (2 ^ 4) with 16;
    rewrite !hexchar_ok by (Z.div_mod_to_equations; lia); rewrite Z.mod_mod by lia;
    replace ((c / 16) mod 16) with (c / 16) by (Z.div_mod_to_equations; lia); reflexivity.
Qed.

Lemma dec_plain : forall comp c r, c <> 37 -> c <> 43 -> url_decode comp (c :: r) = c :: url_decode comp r.
Proof.
  intros comp c r H1 H2. cbn [url_decode].
  destruct (c =? 37) eqn:E1; b2p; [congruence|]. destruct (c =? 43) eqn:E2; b2p; [congruence|]. reflexivity.
Qed.
Lemma dec_escape : forall comp c r, byte c -> comp = true \/ strchr comps c = false ->
  url_decode comp (37 :: hexchar (c / 16) :: hexchar (c mod 16) :: r) = c :: url_decode comp r.
Proof.
  intros comp c r Hb HC. cbn [url_decode]. change (37 =? 37) with true. cbv beta iota zeta.
  rewrite hex_pair_back by auto. replace (negb comp && strchr comps c) with false; auto.
  destruct HC as [-> | ->]; [reflexivity|]. rewrite andb_false_r; auto.
Qed.

(** decodeURIComponent(encodeURIComponent(s)) = s for every string without '%' *)
Theorem uri_component_roundtrip : forall s, strbytes s -> ~ In 37 s ->
  url_decode true (url_encode true s) = s.
Proof.
  induction s as [|c s IH]; intros H NI; [reflexivity|]. inversion H as [|? ? Hc Hs]; subst.
  assert (NI' : ~ In 37 s) by (intros Q; apply NI; right; auto).
  assert (N37 : c <> 37) by (intros ->; apply NI; left; auto).
  specialize (IH Hs NI'). unfold url_encode in *. cbn [flat_map].
  destruct (url_enc1_cases true c Hc) as [(-> & K)|(-> & A & K)]; cbn [app].
  - rewrite dec_plain; [f_equal; exact IH|auto|]. intros ->.
    destruct K as [K|(_ & [K|K])]; vm_compute in K; congruence.
  - rewrite dec_escape by (unfold byte; try lia; auto). f_equal; exact IH.
Qed.
(** decodeURI(encodeURI(s)) = s for every string without '%' and '+' *)
Theorem uri_roundtrip : forall s, strbytes s -> ~ In 37 s -> ~ In 43 s ->
  url_decode false (url_encode false s) = s.
Proof.
  induction s as [|c s IH]; intros H NI NP; [reflexivity|]. inversion H as [|? ? Hc Hs]; subst.
  assert (NI' : ~ In 37 s) by (intros Q; apply NI; right; auto).
  assert (NP' : ~ In 43 s) by (intros Q; apply NP; right; auto).
  assert (N37 : c <> 37) by (intros ->; apply NI; left; auto).
  assert (N43 : c <> 43) by (intros ->; apply NP; left; auto).
  specialize (IH Hs NI' NP'). unfold url_encode in *. cbn [flat_map].
  destruct (url_enc1_cases false c Hc) as [(-> & K)|(-> & A & K)]; cbn [app].
  - rewrite dec_plain by auto. f_equal; exact IH.
  - destruct K as [K|(? & _)]; [|discriminate].
    assert (T : (c =? 0) || negb (strchr ncomps c && strchr comps c) = true) by
       (assert (R : 0 <= c < Z.of_nat 256) by lia; revert R; generalize c;
        apply (range_forall 256 (fun c => (c =? 0) || negb (strchr ncomps c && strchr comps c))); vm_compute; reflexivity).
    replace (c =? 0) with false in T by (symmetry; apply Z.eqb_neq; lia). rewrite K in T. cbn in T. apply negb_true_iff in T.
    rewrite dec_escape by (unfold byte; try lia; auto). f_equal; exact IH.
Qed.
(** An encoded component contains none of the characters that separate the parts of a URI,
    whatever the string. *)
Theorem uri_component_has_no_separators : forall s c, strbytes s -> In c (url_encode true s) -> ~ In c comps.
Proof.
  intros s c H HI HC. unfold url_encode in HI. apply in_flat_map in HI. destruct HI as (x & Hx & HI).
  unfold strbytes in H. rewrite Forall_forall in H. specialize (H x Hx).
  destruct (url_enc1_cases true x H) as [(E & K)|(E & A & K)]; rewrite E in HI; cbn [In] in HI.
  - destruct HI as [<-|[]]. 
    assert (Q : forallb (fun c => negb (isalnum c) && strchr comps c) comps = true) by (vm_compute; reflexivity).
    rewrite forallb_forall in Q. specialize (Q x HC). apply andb_true_iff in Q. destruct Q as [Q1 Q2].
    apply negb_true_iff in Q1. destruct K as [K|(_ & [K|K])]; congruence.
  - assert (Q : forallb (fun c => negb (c =? 37) && forallb (fun v => negb (c =? hexchar v)) (map Z.of_nat (seq 0 16))) comps = true) by (vm_compute; reflexivity).
    rewrite forallb_forall in Q. specialize (Q c HC). apply andb_true_iff in Q. destruct Q as [Q1 Q2].
    apply negb_true_iff in Q1. b2p.
    assert (Q3 := range_forall 16 (fun v => negb (c =? hexchar v)) Q2).
    destruct HI as [<-|[E1|[E1|[]]]]; [congruence| |].
    + specialize (Q3 (x / 16)). rewrite <- E1, Z.eqb_refl in Q3. discriminate Q3. Z.div_mod_to_equations; lia.
    + specialize (Q3 (x mod 16)). rewrite <- E1, Z.eqb_refl in Q3. discriminate Q3. Z.div_mod_to_equations; lia.
Qed.
(** The buffers are large enough: 3n+1 for encoding, n+1 for decoding. *)
Theorem url_encode_fits : forall comp s, (length (url_encode comp s) <= 3 * length s)%nat.
Proof.
  intros comp s. unfold url_encode. induction s as [|c s IH]; [simpl; lia|]. cbn [flat_map]. rewrite app_length.
  assert (length (url_enc1 comp c) <= 3)%nat by (unfold url_enc1; destruct (_ || _); [|destruct (c =? 32)]; simpl; lia).
  simpl (length (c :: s)). lia.
Qed.
Theorem url_decode_fits : forall comp s, (length (url_decode comp s) <= length s)%nat.
Proof.
  intros comp s. remember (length s) as n eqn:En. assert (Hn : (length s <= n)%nat) by lia. clear En.
  revert s Hn. induction n as [|n IH]; intros s Hn.
  - destruct s; [simpl; lia|simpl in Hn; lia].
  - destruct s as [|c r]; [simpl; lia|]. cbn [url_decode]. simpl in Hn.
    destruct (c =? 37).
    + destruct r as [|x [|y r2]]; [simpl; lia| |].
      * etransitivity; [apply IH|]; lia.
      * destruct (_ && _); cbn [length]; apply le_n_S; apply IH; simpl in *; lia.
    + destruct (c =? 43); cbn [length]; apply le_n_S; apply IH; lia.
Qed.
(** '%' is not escaped, so the round trip fails for text that looks like an escape ("%41" -> "A") ... *)
Theorem uri_component_roundtrip_refuted : exists s, strbytes s /\ url_decode true (url_encode true s) <> s.
Proof. exists [37; 52; 49]. split; [repeat constructor|vm_compute; discriminate]. Qed.
(** ... a lone '%' disappears, and decodeURI turns '+' into a blank. *)
Theorem uri_percent_lost_refuted : forall s, strbytes s -> ~ In 37 s -> (length (url_encode true s) < 2)%nat ->
  url_decode true (url_encode true (37 :: s)) = s.
Proof.
  intros s H N L. unfold url_encode in *. cbn [flat_map]. change (url_enc1 true 37) with [37]. cbn [app url_decode].
  change (37 =? 37) with true. cbv iota.
  destruct (flat_map (url_enc1 true) s) as [|x [|y q]] eqn:E.
  - rewrite <- E. apply uri_component_roundtrip; auto.
  - rewrite <- E. apply uri_component_roundtrip; auto.
  - simpl in L; lia.
Qed.
Theorem uri_plus_roundtrip_refuted : exists s, strbytes s /\ ~ In 37 s /\ url_decode false (url_encode false s) <> s.
Proof. exists [43]. repeat split; [repeat constructor|simpl; lia|vm_compute; discriminate]. Qed.

Example uri_ex : url_encode true [97; 47; 98; 63; 32; 200] = [97;37;50;102;98;37;51;102;32;200].
Proof. reflexivity. Qed.
