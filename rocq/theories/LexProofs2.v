(** Lexer: strings, numbers, regular expressions, operators and comments at a place in the text. *)
From Coq Require Import ZArith List Bool Lia.
Import ListNotations.
From Verif Require Import Bits UtfModel UtfSpec UtfProofs CodecModel JsonModel MiscModel MiscSpec MiscProofs LexModel LexSpec LexProofs.
Local Open Scope Z_scope.

(** ** Strings *)
Lemma string_loop_here : forall q lit s, spells q lit s -> In q [34; 39; 96] -> forall fuel pre r buf, (length lit < fuel)%nat ->
  string_loop fuel q (here true pre (lit ++ q :: r)) buf = Some (Some (buf ++ s), here true (pre ++ lit ++ [q]) r).
Proof.
  intros q lit s H Hq. assert (Q : q <> 0 /\ q <> 255 /\ q <> 92) by (cbn in Hq; lia). clear Hq. destruct Q as (Q1 & Q2 & Q3).
  induction H as [|c lit s Hc Hcq Hcb H IH | n v lit s Hn He H IH | a b c d u lit s Hu H IH]; intros fuel pre r buf HF;
    (destruct fuel as [|fuel]; [cbn in HF; lia|]); cbn [string_loop app].
  - rewrite get_here by auto.
    destruct (Z.eqb_spec q 255); [contradiction|]. destruct (Z.eqb_spec q 0); [contradiction|]. destruct (Z.eqb_spec q 92); [contradiction|].
    rewrite Z.eqb_refl. cbn [orb]. rewrite app_nil_r. reflexivity.
  - rewrite get_here by lia.
    destruct (Z.eqb_spec c 255); [lia|]. destruct (Z.eqb_spec c 0); [lia|]. destruct (Z.eqb_spec c 92); [contradiction|].
    destruct (Z.eqb_spec c q); [contradiction|]. cbn [orb].
    rewrite IH by (cbn in HF; lia). rewrite <- !app_assoc. reflexivity.
  - rewrite get_here by lia. change (92 =? 255) with false. change (92 =? 0) with false. change (92 =? 92) with true. cbn [orb].
    rewrite get_here by lia. destruct (Z.eqb_spec n 255); [lia|]. destruct (Z.eqb_spec n 0); [lia|]. cbn [orb].
    destruct (escape1_ok _ _ He) as [E Nu]. destruct (Z.eqb_spec n 117); [contradiction|].
    rewrite IH by (cbn in HF; lia). rewrite E, <- !app_assoc. reflexivity.
  - rewrite get_here by lia. change (92 =? 255) with false. change (92 =? 0) with false. change (92 =? 92) with true. cbn [orb].
    rewrite get_here by lia. change (117 =? 255) with false. change (117 =? 0) with false. change (117 =? 117) with true. cbn [orb].
    destruct (numeral4 _ _ _ _ _ Hu) as (v1 & v2 & v3 & v4 & D1 & D2 & D3 & D4 & E).
    destruct (hex_digit_is _ _ D1) as (_ & _ & _ & Z1). destruct (hex_digit_is _ _ D2) as (_ & _ & _ & Z2).
    destruct (hex_digit_is _ _ D3) as (_ & _ & _ & Z3). destruct (hex_digit_is _ _ D4) as (_ & _ & _ & Z4).
    rewrite !get_here by auto. destruct (utf_decode4_utf8 _ _ _ _ _ Hu) as [-> _].
    rewrite IH by (cbn in HF; lia). rewrite <- !app_assoc. reflexivity.
Qed.

(** Characters at the front *)
Lemma get_any : forall b pre t, Forall (fun c => 0 < c) t -> exists t', getchar (here b pre t) = (hd 0 t, here b (pre ++ firstn 1 t) t') /\ t = firstn 1 t ++ t'.
Proof.
  intros b pre [|c t] H; cbn [hd firstn].
  - exists []. rewrite get_end, app_nil_r. auto.
  - inversion H; subst. exists t. rewrite get_here by lia. auto.
Qed.
Lemma escaped_escape1 : forall n, n <> 117 -> escaped n (escape1 n).
Proof.
  intros n Hn. unfold escape1, escaped. cbn [In].
  repeat match goal with |- context [?a =? ?b] => destruct (Z.eqb_spec a b) end; lia.
Qed.
Lemma hex_is : forall c, isxdigit c = true -> digit_is 16 c (from_hex_char c).
Proof.
  intros c H. apply (proj1 (isxdigit_iff c)) in H. unfold hexdigit, digit in H.
  assert (E : In c [48;49;50;51;52;53;54;55;56;57;65;66;67;68;69;70;97;98;99;100;101;102]) by (cbn; lia).
  cbn in E. repeat (destruct E as [<- | E]; [unfold digit_is; cbv -[Z.le Z.lt]; lia | ]). contradiction.
Qed.
Lemma decode4_numeral : forall a b c d s, utf_decode4 [a; b; c; d] = Some s -> exists u, numeral 16 [a; b; c; d] u /\ s = utf8 u /\ 0 < a /\ 0 < b /\ 0 < c /\ 0 < d.
Proof.
  intros a b c d s H.
  assert (E : isxdigit a = true /\ isxdigit b = true /\ isxdigit c = true /\ isxdigit d = true).
  { unfold utf_decode4, at_ in H. cbn [nth] in H.
    destruct (isxdigit a), (isxdigit b), (isxdigit c), (isxdigit d); try discriminate H; auto. }
  destruct E as (E1 & E2 & E3 & E4).
  assert (N : numeral 16 [a; b; c; d] (((from_hex_char a * 16 + from_hex_char b) * 16 + from_hex_char c) * 16 + from_hex_char d)).
  { change [a; b; c; d] with ([a; b; c] ++ [d]). apply num_more; [|apply hex_is; auto].
    change [a; b; c] with ([a; b] ++ [c]). apply num_more; [|apply hex_is; auto].
    change [a; b] with ([a] ++ [b]). apply num_more; [|apply hex_is; auto]. apply num_one. apply hex_is; auto. }
  exists (((from_hex_char a * 16 + from_hex_char b) * 16 + from_hex_char c) * 16 + from_hex_char d). split; auto.
  destruct (utf_decode4_utf8 _ _ _ _ _ N) as [K _]. split; [congruence|].
  apply (proj1 (isxdigit_iff _)) in E1, E2, E3, E4. unfold hexdigit, digit in *. lia.
Qed.

(** What a string literal that is accepted looks like *)
Lemma string_loop_inv : forall fuel q pre t buf s l, Forall (fun c => 0 < c <= 255) t ->
  string_loop fuel q (here true pre t) buf = Some (Some s, l) ->
  exists lit v r, t = lit ++ q :: r /\ spells q lit v /\ s = buf ++ v /\ l = here true (pre ++ lit ++ [q]) r.
Proof.
  induction fuel as [|fuel IH]; intros q pre t buf s l Ht H; [discriminate|]. cbn [string_loop] in H.
  destruct t as [|c t]; [rewrite get_end in H; discriminate|]. inversion Ht as [|? ? Hc Ht']; subst.
  rewrite get_here in H by lia.
  destruct (Z.eqb_spec c 255); [discriminate|]. destruct (Z.eqb_spec c 0); [lia|]. cbn [orb] in H.
  destruct (Z.eqb_spec c 92) as [->|N92].
  - destruct t as [|m t]; [rewrite get_end in H; discriminate|]. inversion Ht' as [|? ? Hn Ht2]; subst.
    rewrite get_here in H by lia. destruct (Z.eqb_spec m 255); [discriminate|]. destruct (Z.eqb_spec m 0); [lia|]. cbn [orb] in H.
    destruct (Z.eqb_spec m 117) as [->|Nu].
    + assert (P : forall x, Forall (fun c => 0 < c <= 255) x -> Forall (fun c => 0 < c) x) by (intros; eapply Forall_impl; [|eauto]; cbv beta; lia).
      destruct t as [|a1 t]; [rewrite !get_end in H; discriminate|]. inversion Ht2 as [|? ? Ha1 Ht3]; subst. rewrite get_here in H by lia.
      destruct t as [|a2 t]; [rewrite !get_end in H; cbv zeta in H; unfold utf_decode4, at_ in H; cbn [nth] in H; change (isxdigit 0) with false in H; rewrite ?andb_false_r in H; discriminate|].
      inversion Ht3 as [|? ? Ha2 Ht4]; subst. rewrite get_here in H by lia.
      destruct t as [|a3 t]; [rewrite !get_end in H; unfold utf_decode4, at_ in H; cbn [nth] in H; change (isxdigit 0) with false in H; rewrite ?andb_false_r in H; discriminate|].
      inversion Ht4 as [|? ? Ha3 Ht5]; subst. rewrite get_here in H by lia.
      destruct t as [|a4 t]; [rewrite !get_end in H; unfold utf_decode4, at_ in H; cbn [nth] in H; change (isxdigit 0) with false in H; rewrite ?andb_false_r in H; discriminate|].
      inversion Ht5 as [|? ? Ha4 Ht6]; subst. rewrite get_here in H by lia.
      destruct (utf_decode4 [a1; a2; a3; a4]) as [b|] eqn:E; [|discriminate].
      destruct (decode4_numeral _ _ _ _ _ E) as (u & Hu & -> & _).
      destruct (IH _ _ _ _ _ _ Ht6 H) as (lit & v & r & -> & Hs & -> & ->).
      exists (92 :: 117 :: a1 :: a2 :: a3 :: a4 :: lit), (utf8 u ++ v), r. split; [reflexivity|]. split; [constructor; auto|].
      split; [rewrite app_assoc; reflexivity|]. rewrite <- !app_assoc. reflexivity.
    + destruct (IH _ _ _ _ _ _ Ht2 H) as (lit & v & r & -> & Hs & -> & ->).
      exists (92 :: m :: lit), (escape1 m :: v), r. split; [reflexivity|].
      split; [constructor; auto; [lia | apply escaped_escape1; auto]|].
      split; [rewrite <- app_assoc; reflexivity|]. rewrite <- !app_assoc. reflexivity.
  - destruct (Z.eqb_spec c q) as [->|Nq].
    + injection H as <- <-. exists [], [], t. split; [reflexivity|]. split; [constructor|]. rewrite app_nil_r. auto.
    + destruct (IH _ _ _ _ _ _ Ht' H) as (lit & v & r & -> & Hs & -> & ->).
      exists (c :: lit), (c :: v), r. split; [reflexivity|]. split; [constructor; auto; lia|].
      split; [rewrite <- app_assoc; reflexivity|]. rewrite <- !app_assoc. reflexivity.
Qed.

(** ** Numbers *)
Definition accept (word : list Z) (cpre c : Z) : bool :=
  isxdigit c || (c =? 46) || (toupper c =? 80) || (toupper c =? 69)
  || ((toupper c =? 88) && (length word =? 1)%nat && (at_ word 0 =? 48))
  || (((c =? 45) || (c =? 43)) && (toupper cpre =? 69)).
Fixpoint accepts (word : list Z) (cpre : Z) (w : list Z) : bool :=
  match w with [] => true | c :: w => accept word cpre c && accepts (word ++ [c]) c w end.
Fixpoint count_hex (w : list Z) : Z := match w with [] => 0 | c :: w => (if isxdigit c then 1 else 0) + count_hex w end.
Definition has_x (w : list Z) : bool := existsb (fun c => toupper c =? 88) w.
Lemma accept_pos : forall word cpre c, accept word cpre c = true -> 0 < c.
Proof.
  intros word cpre c H. destruct (Z.leb_spec c 0); [exfalso|lia].
  unfold accept in H.
  assert (X : isxdigit c = false) by (apply (false_iff _ _ (isxdigit_iff c)); unfold hexdigit, digit; lia).
  assert (U : toupper c = c) by (unfold toupper; destruct (Z.leb_spec 97 c); [lia|]; reflexivity).
  rewrite X, U in H. repeat match type of H with context [c =? ?b] => destruct (Z.eqb_spec c b); [lia|] end. discriminate.
Qed.
Lemma last_cons : forall w (x d : Z), last (x :: w) d = last w x.
Proof. induction w as [|y w IH]; intros x d; [reflexivity|]. change (last (x :: y :: w) d) with (last (y :: w) d). rewrite (IH y x), (IH y d). reflexivity. Qed.
Lemma num_loop_here : forall w fuel pre w0 hex dig cpre r, accepts w0 cpre w = true ->
  (length (w0 ++ w) <= 1020)%nat -> Forall (fun c => 0 < c) r ->
  accept (w0 ++ w) (last w cpre) (hd 0 r) = false -> (length w < fuel)%nat ->
  num_loop fuel (here false pre (w ++ r)) w0 hex dig cpre =
    Some (w0 ++ w, hex || has_x w, dig + count_hex w, here false (pre ++ w) r).
Proof.
  induction w as [|x w IH]; intros fuel pre w0 hex dig cpre r Ha HL Hr Hn HF; (destruct fuel as [|fuel]; [cbn in HF; lia|]); cbn [num_loop app].
  - rewrite !app_nil_r in *. cbn [has_x existsb count_hex last] in *. rewrite orb_false_r, Z.add_0_r.
    destruct (Nat.leb_spec 1020 (length w0)); [reflexivity|].
    destruct (getchar (here false pre r)) as [c l] eqn:E. destruct (peek _ _ _ _ _ Hr E) as [-> EU].
    change (isxdigit (hd 0 r) || (hd 0 r =? 46) || (toupper (hd 0 r) =? 80) || (toupper (hd 0 r) =? 69)
      || ((toupper (hd 0 r) =? 88) && (length w0 =? 1)%nat && (at_ w0 0 =? 48)) || (((hd 0 r =? 45) || (hd 0 r =? 43)) && (toupper cpre =? 69)))
      with (accept w0 cpre (hd 0 r)). rewrite Hn, EU.
    assert (X : isxdigit (hd 0 r) = false) by (unfold accept in Hn; destruct (isxdigit (hd 0 r)); [discriminate|reflexivity]).
    rewrite X. reflexivity.
  - cbn [accepts] in Ha. apply andb_true_iff in Ha. destruct Ha as [A1 A2].
    rewrite app_length in HL. cbn [length] in HL. destruct (Nat.leb_spec 1020 (length w0)); [lia|].
    pose proof (accept_pos _ _ _ A1). rewrite get_here by lia.
    change (isxdigit x || (x =? 46) || (toupper x =? 80) || (toupper x =? 69)
      || ((toupper x =? 88) && (length w0 =? 1)%nat && (at_ w0 0 =? 48)) || (((x =? 45) || (x =? 43)) && (toupper cpre =? 69)))
      with (accept w0 cpre x). rewrite A1.
    rewrite IH; auto; [| rewrite !app_length; cbn [length]; lia | | cbn in HF; lia].
    + rewrite <- !app_assoc. cbn [app has_x existsb count_hex]. fold (has_x w). rewrite orb_assoc. do 3 f_equal.
      destruct (isxdigit x); lia.
    + rewrite <- app_assoc. cbn [app]. rewrite last_cons in Hn. exact Hn.
Qed.

(** ** Regular expressions *)
Lemma flags_here : forall fl fuel room pre buf r, Forall (fun c => (letter c /\ c <> 95 /\ c <> 36) \/ digit c) fl ->
  Forall (fun c => 0 < c) r -> not_next (fun c => (letter c /\ c <> 95 /\ c <> 36) \/ digit c) r ->
  Z.of_nat (length fl) < room -> (length fl < fuel)%nat ->
  flags_loop fuel room (here false pre (fl ++ r)) buf = Some (Some (buf ++ fl), here false (pre ++ fl) r).
Proof.
  induction fl as [|x fl IH]; intros fuel room pre buf r Hfl Hr Hn HR HF; (destruct fuel as [|fuel]; [cbn in HF; lia|]); cbn [flags_loop app].
  - cbn [length] in HR. destruct (Z.leb_spec room 0); [lia|].
    destruct (getchar (here false pre r)) as [c l] eqn:E. destruct (peek _ _ _ _ _ Hr E) as [-> EU].
    assert (W : LexModel.isalnum (hd 0 r) = false).
    { apply (false_iff _ _ (isalnum_iff (hd 0 r))). destruct r; [cbn; unfold letter, digit; lia | exact Hn]. }
    rewrite W, EU, !app_nil_r. reflexivity.
  - inversion Hfl; subst. cbn [length] in *. destruct (Z.leb_spec room 0); [lia|].
    rewrite get_here by (unfold letter, digit in *; lia). rewrite (proj2 (isalnum_iff x)) by auto.
    rewrite IH; auto; try lia. rewrite <- !app_assoc. reflexivity.
Qed.
Lemma regex_here : forall b, regex_body b -> forall fuel pre buf fl r, Forall (fun c => (letter c /\ c <> 95 /\ c <> 36) \/ digit c) fl ->
  Forall (fun c => 0 < c) r -> not_next (fun c => (letter c /\ c <> 95 /\ c <> 36) \/ digit c) r ->
  Z.of_nat (length (buf ++ b ++ 47 :: fl)) < 8187 -> (length b < fuel)%nat ->
  regex_loop fuel 8192 (here false pre (b ++ 47 :: fl ++ r)) buf =
    Some (Some (buf ++ b ++ 47 :: fl), here false (pre ++ b ++ 47 :: fl) r).
Proof.
  induction 1 as [|c b Hc N1 N2 H IH|c b Hc H IH]; intros fuel pre buf fl r Hfl Hr Hn HL HF; (destruct fuel as [|fuel]; [cbn in HF; lia|]);
    rewrite app_length in HL; cbn [regex_loop app]; cbv zeta; (destruct (Z.leb_spec (8192 - 5) (Z.of_nat (length buf))); [lia|]).
  - rewrite get_here by lia. change (47 =? 255) with false. change (47 =? 0) with false. change (47 =? 92) with false. change (47 =? 47) with true. cbn [orb].
    cbn [app length] in HL. rewrite flags_here; auto; [|lia | rewrite left_here, app_length; lia].
    rewrite <- !app_assoc. reflexivity.
  - rewrite get_here by lia. destruct (Z.eqb_spec c 255); [lia|]. destruct (Z.eqb_spec c 0); [lia|]. destruct (Z.eqb_spec c 92); [contradiction|].
    destruct (Z.eqb_spec c 47); [contradiction|]. cbn [orb].
    rewrite IH; auto; [|clear IH; rewrite !app_length in *; cbn [length] in *; lia | cbn in HF; lia]. rewrite <- !app_assoc. reflexivity.
  - rewrite get_here by lia. change (92 =? 255) with false. change (92 =? 0) with false. change (92 =? 92) with true. cbn [orb].
    rewrite get_here by lia. destruct (Z.eqb_spec c 255); [lia|].
    rewrite IH; auto; [|clear IH; rewrite !app_length in *; cbn [length] in *; lia | cbn in HF; lia]. rewrite <- !app_assoc. reflexivity.
Qed.

(** ** Operators *)
Lemma sign_chars_plain : forall n pre t, Forall (fun c => 0 < c) t -> Forall (fun c => c <> 10) (firstn n t) ->
  sign_chars n (here false pre t) = (firstn n t, here false (pre ++ firstn n t) (skipn n t)).
Proof.
  induction n as [|n IH]; intros pre t Ht Hn; cbn [sign_chars firstn skipn].
  - rewrite app_nil_r. reflexivity.
  - destruct t as [|c t].
    + rewrite get_end. cbn [Z.eqb orb]. rewrite app_nil_r. reflexivity.
    + inversion Ht; subst. cbn [firstn] in Hn. inversion Hn; subst. rewrite get_here by lia.
      destruct (Z.eqb_spec c 0); [lia|]. destruct (Z.eqb_spec c 10); [contradiction|]. cbn [orb].
      rewrite IH by auto. rewrite <- app_assoc. reflexivity.
Qed.
Lemma sign_chars_newline : forall a n pre b, Forall (fun c => 0 < c) a -> Forall (fun c => c <> 10) a -> (length a < n)%nat ->
  sign_chars n (here false pre (a ++ 10 :: b)) = (a, here false (pre ++ a ++ [10]) b).
Proof.
  induction a as [|c a IH]; intros n pre b Ha Hn HL; (destruct n as [|n]; [cbn in HL; lia|]); cbn [sign_chars app].
  - rewrite get_here by lia. cbn [Z.eqb orb Pos.eqb]. reflexivity.
  - inversion Ha; inversion Hn; subst. rewrite get_here by lia.
    destruct (Z.eqb_spec c 0); [lia|]. destruct (Z.eqb_spec c 10); [contradiction|]. cbn [orb].
    rewrite IH by (auto; cbn in HL; lia). rewrite <- app_assoc. reflexivity.
Qed.
Lemma unget_all_plain : forall cs pre r, Forall (fun c => 0 < c) cs ->
  unget_all cs (here false (pre ++ cs) r) = Some (here false pre (cs ++ r)).
Proof.
  induction cs as [|c cs IH]; intros pre r H; cbn [unget_all].
  - rewrite app_nil_r. reflexivity.
  - inversion H; subst. replace (pre ++ c :: cs) with ((pre ++ [c]) ++ cs) by (rewrite <- app_assoc; reflexivity).
    rewrite IH by auto. apply unget_here. lia.
Qed.
Lemma unget_all_back : forall cs pre r, Forall (fun c => 0 < c /\ c <> 10) cs -> (length cs <= 4)%nat ->
  unget_all cs (here false (pre ++ [10]) r) = Some (with_back cs (pre ++ [10]) r).
Proof.
  induction cs as [|c cs IH]; intros pre r H HL; cbn [unget_all]; [reflexivity|].
  inversion H as [|? ? [C1 C2] H']; subst. rewrite IH by (auto; cbn in HL; lia). cbn [length] in HL.
  unfold ungetc. destruct (Z.eqb_spec c 0); [lia|]. cbn [with_back unch cur src].
  rewrite at_last. assert (E : (c =? 10) = false) by (apply Z.eqb_neq; auto). rewrite E, andb_false_r.
  destruct (Z.ltb_spec (Z.of_nat (length cs) + 2) 400); [|lia]. destruct (Z.ltb_spec (Z.of_nat (length cs)) 100); [reflexivity|lia].
Qed.
Lemma prefix_iff : forall p s, prefix p s = true <-> exists r, s = p ++ r.
Proof.
  induction p as [|x p IH]; intros s; cbn [prefix].
  - split; [exists s; reflexivity | reflexivity].
  - destruct s as [|y s].
    + split; [discriminate | intros (r & E); discriminate].
    + rewrite andb_true_iff, Z.eqb_eq, IH. split.
      * intros (-> & r & ->). exists r. reflexivity.
      * intros (r & E). injection E as -> ->. split; [reflexivity | exists r; reflexivity].
Qed.
Lemma signs_operators : forall s, In s signs <-> In s operators.
Proof. intros s. split; apply incl_b_ok; vm_compute; reflexivity. Qed.
Lemma operators_chars : forall s, In s operators -> Forall (fun c => 0 < c /\ ~ white c /\ ~ digit c /\ ~ letter c /\ ~ In c [34; 39; 96] /\ c < 127 /\ c <> 46) s /\ (2 <= length s <= 4)%nat.
Proof.
  intros s H. apply signs_operators in H. cbn [signs In] in H.
  repeat match type of H with _ \/ _ => destruct H as [<- | H]; [split; [repeat apply Forall_cons; try apply Forall_nil; unfold white, digit, letter; cbn [In]; lia | cbn; lia] | ] end. contradiction.
Qed.
Fixpoint desc (l : list (list Z)) : bool :=
  match l with [] => true | x :: r => forallb (fun y => (length y <=? length x)%nat) r && desc r end.
Lemma find_longest : forall l P s x, desc l = true -> In s l -> P s = true -> find P l = Some x -> (length s <= length x)%nat.
Proof.
  induction l as [|y l IH]; intros P s x Hd Hs HP Hf; [contradiction|]. cbn [desc find] in *.
  apply andb_true_iff in Hd. destruct Hd as [D1 D2]. destruct (P y) eqn:E.
  - injection Hf as ->. destruct Hs as [-> | Hs]; [lia|]. rewrite forallb_forall in D1. apply Nat.leb_le. apply D1. exact Hs.
  - destruct Hs as [-> | Hs]; [congruence|]. eauto.
Qed.
Lemma prefix_of_both : forall (a b c r r' : list Z), a ++ r = b ++ r' -> length a = length b -> a = b.
Proof.
  intros a b _ r r' E L. assert (K := f_equal (firstn (length a)) E). rewrite firstn_app, Nat.sub_diag, firstn_all, app_nil_r in K.
  rewrite L, firstn_app, Nat.sub_diag, firstn_all, app_nil_r in K. exact K.
Qed.
(** What is found at the front of [buf], the text before a newline among the first four characters *)
Definition sign_at (buf : list Z) : option (list Z) := find (fun s => prefix s buf) signs.
Lemma sign_at_longest : forall s r buf rest, In s operators ->
  (forall s' r', In s' operators -> s ++ r = s' ++ r' -> (length s' <= length s)%nat) ->
  s ++ r = buf ++ rest -> (length s <= length buf)%nat -> sign_at buf = Some s.
Proof.
  intros s r buf rest Hs Hmax E HL. unfold sign_at.
  assert (P : prefix s buf = true).
  { apply prefix_iff. exists (skipn (length s) buf). rewrite <- (firstn_skipn (length s) buf) at 1. f_equal.
    assert (K := f_equal (firstn (length s)) E). rewrite !firstn_app, Nat.sub_diag, firstn_all, app_nil_r in K.
    replace (length s - length buf)%nat with 0%nat in K by lia. cbn [firstn] in K. rewrite app_nil_r in K. auto. }
  destruct (find (fun s0 => prefix s0 buf) signs) as [x|] eqn:F.
  - f_equal. apply find_some in F as G. destruct G as [G1 G2]. apply prefix_iff in G2. destruct G2 as (r' & ->).
    assert (L1 : (length x <= length s)%nat). { apply (Hmax x (r' ++ rest)); [apply signs_operators; auto|]. rewrite E, <- app_assoc. reflexivity. }
    assert (L2 : (length s <= length x)%nat). { eapply (find_longest signs (fun s0 => prefix s0 (x ++ r'))); [vm_compute; reflexivity | apply signs_operators; exact Hs | exact P | exact F]. }
    apply (prefix_of_both x s [] (r' ++ rest) r); [|lia]. rewrite app_assoc. auto.
  - exfalso. assert (K := find_none _ _ F s (proj2 (signs_operators s) Hs)). cbv beta in K. congruence.
Qed.
Lemma sign_at_none : forall t buf rest, t = buf ++ rest -> (forall s' r', In s' operators -> t <> s' ++ r') -> sign_at buf = None.
Proof.
  intros t buf rest E H. unfold sign_at. destruct (find (fun s0 => prefix s0 buf) signs) as [x|] eqn:F; [exfalso|reflexivity].
  apply find_some in F. destruct F as [G1 G2]. apply prefix_iff in G2. destruct G2 as (r' & ->).
  apply (H x (r' ++ rest)); [apply signs_operators; auto|]. rewrite E, <- app_assoc. reflexivity.
Qed.
(** The first newline among the first characters *)
Lemma newline_split : forall n (t : list Z), Forall (fun c => c <> 10) (firstn n t) \/
  exists a b, t = a ++ 10 :: b /\ Forall (fun c => c <> 10) a /\ (length a < n)%nat.
Proof.
  induction n as [|n IH]; intros t; [left; constructor|]. destruct t as [|c t]; [left; constructor|].
  destruct (Z.eq_dec c 10) as [->|N].
  - right. exists [], t. repeat split; [constructor | cbn; lia].
  - destruct (IH t) as [H | (a & b & -> & H1 & H2)].
    + left. cbn. constructor; auto.
    + right. exists (c :: a), b. repeat split; [constructor; auto | cbn; lia].
Qed.
Lemma Forall_pos_app : forall a b, Forall (fun c => 0 < c) (a ++ b) <-> Forall (fun c => 0 < c) a /\ Forall (fun c => 0 < c) b.
Proof. intros. apply Forall_app. Qed.

Lemma pos_firstn : forall n s, Forall (fun c => 0 < c) s -> Forall (fun c => 0 < c) (firstn n s).
Proof. intros n s H. rewrite <- (firstn_skipn n s) in H. apply Forall_app in H. tauto. Qed.

Section Tok.
Context (D : Type).
(** Where the lexer is after an operator [s] in front of [r]: a newline after it is gone, and white space before
    that newline has been put back *)
Definition after_sign (pre r : list Z) (l : lexer) : Prop :=
  exists w pre' r', l = with_back w pre' r' /\ Forall white w /\
    ((w = [] /\ r' = r) \/ r = w ++ 10 :: r').
Lemma do_sign_here : forall pre s r, s <> [] -> (length s <= 4)%nat -> Forall (fun c => 0 < c /\ c <> 10) s -> Forall (fun c => 0 < c) r ->
  early_newline_harmless (4 - length s) r ->
  (forall buf rest, s ++ r = buf ++ rest -> (length s <= length buf)%nat -> sign_at buf = Some s \/ (length s = 1%nat /\ sign_at buf = None)) ->
  exists l, do_sign D (here false pre (s ++ r)) = Some (TSign D s, l) /\ after_sign pre r l.
Proof.
  intros pre s r Hs HL Hc Hr He Hf.
  assert (Hc1 : Forall (fun c => 0 < c) s) by (eapply Forall_impl; [|exact Hc]; cbv beta; tauto).
  assert (Hc2 : Forall (fun c => c <> 10) s) by (eapply Forall_impl; [|exact Hc]; cbv beta; tauto).
  assert (Hsr : Forall (fun c => 0 < c) (s ++ r)) by (apply Forall_app; auto).
  assert (G : forall buf rest l, s ++ r = buf ++ rest -> (length s <= length buf)%nat -> buf = s ++ skipn (length s) buf ->
    match buf with
    | [] => Some (TEnd D, l)
    | c :: r0 => match find (fun s0 => prefix s0 buf) signs with
                 | Some s0 => match unget_all (skipn (length s0) buf) l with Some l0 => Some (TSign D s0, l0) | None => None end
                 | None => match unget_all r0 l with Some l0 => Some (TSign D [c], l0) | None => None end
                 end
    end = match unget_all (skipn (length s) buf) l with Some l0 => Some (TSign D s, l0) | None => None end).
  { intros buf rest l E Lb Eb. destruct buf as [|c buf]; [destruct s; [contradiction|cbn in Lb; lia]|].
    destruct (Hf _ _ E Lb) as [F | [F1 F]]; unfold sign_at in F; rewrite F; [reflexivity|].
    destruct s as [|c' [|]]; try discriminate. cbn [app skipn length] in *. injection Eb as ->. reflexivity. }
  destruct (newline_split 4 (s ++ r)) as [Hn | (a & b & E & Ha & La)].
  - unfold do_sign. rewrite sign_chars_plain by auto.
    assert (Eb : firstn 4 (s ++ r) = s ++ firstn (4 - length s) r) by (rewrite firstn_app, firstn_all2 by lia; reflexivity).
    rewrite (G _ (skipn 4 (s ++ r))); [ | symmetry; apply firstn_skipn | rewrite Eb, app_length; lia
      | rewrite Eb, skipn_app_exact; reflexivity].
    rewrite Eb, skipn_app_exact, app_assoc, unget_all_plain by (apply pos_firstn; exact Hr).
    eexists. split; [reflexivity|]. exists [], (pre ++ s), r. split; [|split; [constructor | left; auto]].
    unfold here, with_back. f_equal. f_equal. rewrite skipn_app, skipn_all2 by lia. cbn [app]. apply firstn_skipn.
  - assert (exists a', a = s ++ a' /\ r = a' ++ 10 :: b) as (a' & -> & ->).
    { clear - E Hc2. revert a E. induction s as [|x s IH]; intros a E; [exists a; auto|].
      inversion Hc2; subst. destruct a as [|y a]; [cbn in E; congruence|]. cbn in E. injection E as -> E.
      destruct (IH H2 a E) as (a' & -> & ->). exists a'. auto. }
    unfold do_sign. rewrite app_assoc.
    assert (Pa : Forall (fun c => 0 < c) (s ++ a')) by (apply Forall_app; split; auto; apply Forall_app in Hr; tauto).
    rewrite sign_chars_newline by auto.
    rewrite (G _ (10 :: b)); [ | rewrite <- app_assoc; reflexivity | rewrite app_length; lia | rewrite skipn_app_exact; reflexivity].
    rewrite skipn_app_exact. rewrite app_assoc, unget_all_back.
    + eexists. split; [reflexivity|]. exists a', ((pre ++ s ++ a') ++ [10]), b. split; [reflexivity|].
      split; [|right; auto].
      apply (He a' (firstn (4 - length s - length a' - 1) b)). rewrite firstn_app, firstn_all2 by (rewrite app_length in La; lia).
      f_equal. rewrite app_length in La. set (k := (4 - length s - length a')%nat) in *. assert (Ek : k = S (k - 1)) by (unfold k; lia). rewrite Ek at 1. reflexivity.
    + apply Forall_app in Pa. apply Forall_app in Ha. destruct Pa as [_ P1], Ha as [_ P2].
      rewrite Forall_forall in *. intros x Hx. split; [apply P1 | apply P2]; auto.
    + rewrite app_length in La. lia.
Qed.
End Tok.

(** ** Comments *)
Lemma eat_line_here : forall b fuel pre e r, Forall (fun c => c <> 10 /\ c <> 13 /\ 0 < c) b -> e = 10 \/ e = 13 -> (length b < fuel)%nat ->
  eat_line fuel (here false pre (b ++ e :: r)) = Some (here false (pre ++ b ++ [e]) r).
Proof.
  induction b as [|x b IH]; intros fuel pre e r Hb He HF; (destruct fuel as [|fuel]; [cbn in HF; lia|]); cbn [eat_line app].
  - rewrite get_here by lia. destruct He as [-> | ->]; reflexivity.
  - inversion Hb as [|? ? (X1 & X2 & X3) Hb']; subst. rewrite get_here by lia.
    destruct (Z.eqb_spec x 13); [contradiction|]. destruct (Z.eqb_spec x 10); [contradiction|]. destruct (Z.eqb_spec x 0); [lia|]. cbn [orb].
    rewrite IH by (auto; cbn in HF; lia). rewrite <- app_assoc. reflexivity.
Qed.
Lemma eat_line_end : forall b fuel pre, Forall (fun c => c <> 10 /\ c <> 13 /\ 0 < c) b -> (length b < fuel)%nat ->
  eat_line fuel (here false pre b) = Some (here false (pre ++ b) []).
Proof.
  induction b as [|x b IH]; intros fuel pre Hb HF; (destruct fuel as [|fuel]; [cbn in HF; lia|]); cbn [eat_line].
  - rewrite get_end. cbn [Z.eqb orb]. rewrite app_nil_r. reflexivity.
  - inversion Hb as [|? ? (X1 & X2 & X3) Hb']; subst. rewrite get_here by lia.
    destruct (Z.eqb_spec x 13); [contradiction|]. destruct (Z.eqb_spec x 10); [contradiction|]. destruct (Z.eqb_spec x 0); [lia|]. cbn [orb].
    rewrite IH by (auto; cbn in HF; lia). rewrite <- app_assoc. reflexivity.
Qed.
Lemma eat_comment_here : forall b fuel pre r, Forall (fun c => 0 < c) b -> (forall x y, b ++ [42] <> x ++ 42 :: 47 :: y) -> (length b < fuel)%nat ->
  eat_comment fuel (here false pre (b ++ 42 :: 47 :: r)) = Some (true, here false (pre ++ b ++ [42; 47]) r).
Proof.
  induction b as [|x b IH]; intros fuel pre r Hb Hn HF; (destruct fuel as [|fuel]; [cbn in HF; lia|]); cbn [eat_comment app].
  - rewrite get_here by lia. change (42 =? 0) with false. change (42 =? 42) with true. cbv iota. rewrite get_here by lia.
    change (47 =? 47) with true. cbv iota. rewrite <- app_assoc. reflexivity.
  - inversion Hb; subst. rewrite get_here by lia. destruct (Z.eqb_spec x 0); [lia|].
    assert (Hn' : forall x0 y, b ++ [42] <> x0 ++ 42 :: 47 :: y) by (intros x0 y E; apply (Hn (x :: x0) y); cbn; rewrite E; reflexivity).
    assert (R : eat_comment fuel (here false (pre ++ [x]) (b ++ 42 :: 47 :: r)) = Some (true, here false (pre ++ x :: b ++ [42; 47]) r)).
    { rewrite IH by (auto; cbn in HF; lia). rewrite <- !app_assoc. reflexivity. }
    destruct (Z.eqb_spec x 42) as [->|N]; [|exact R].
    assert (exists y t, b ++ 42 :: 47 :: r = y :: t /\ y <> 47 /\ y <> 0) as (y & t & E & Y1 & Y2).
    { destruct b as [|y b]; [exists 42, (47 :: r); repeat split; lia|]. exists y, (b ++ 42 :: 47 :: r). inversion H2; subst. repeat split; [|lia].
      intros ->. apply (Hn [] (b ++ [42])). reflexivity. }
    rewrite E in *. rewrite get_here by auto. destruct (Z.eqb_spec y 47); [contradiction|]. rewrite unget_here by auto. exact R.
Qed.
