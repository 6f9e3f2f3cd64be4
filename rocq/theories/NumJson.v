(** Numbers that JSON text carries *)
From Coq Require Import ZArith QArith Qpower Qabs List Lia Lqa Bool SpecFloat.
From Verif Require Import UtfModel Bits NumModel NumSpec NumProofs NumProofs2 NumProofs3 NumProofs4 NumProofs5 NumProps.
Import ListNotations.
Local Open Scope Z_scope.

Definition num_char (c : Z) : Prop := 48 <= c <= 57 \/ In c [45; 43; 46; 101].
Definition num_text (t : list Z) : Prop := t <> [] /\ (at_ t 0 = 45 \/ 48 <= at_ t 0 <= 57) /\ Forall num_char t.
Lemma digits_chars : forall s, digits s -> Forall num_char s.
Proof. intros s. apply Forall_impl. unfold num_char. auto. Qed.
Lemma exponent_chars : forall x, Z.abs x < 10 ^ 19 -> Forall num_char (exponent x).
Proof.
  intros x H. unfold exponent. constructor; [right; cbn; tauto|]. constructor; [right; destruct (x <? 0); cbn; tauto|].
  apply Forall_app. split; [destruct (Z.abs x <? 10); repeat constructor; lia|]. apply digits_chars.
  apply udec_ok; [change (10 ^ Z.of_nat 20) with 100000000000000000000; change (10 ^ 19) with 10000000000000000000 in H; lia | lia].
Qed.
Lemma point_chars : forall f, digits f -> Forall num_char (point f).
Proof. intros [|c f] H; cbn [point]; constructor; [right; cbn; tauto | apply digits_chars; auto]. Qed.
Lemma print_g_chars : forall p m e, 1 <= p -> mant m e -> print_g p (frac m e) <> [] /\ 48 <= at_ (print_g p (frac m e)) 0 <= 57 /\ Forall num_char (print_g p (frac m e)).
Proof.
  intros p m e Hp M. destruct (frac_range m e M) as [L U]. destruct (sig p (frac m e)) as [x k] eqn:ES.
  destruct (sig_ok p _ x k Hp (frac_pos m e) L U ES) as (X & LG & HX & Hk & _ & _).
  assert (XB : -401 < X < 400).
  { split.
    - assert (-400 < X + 1); [|lia]. apply (pw_lt_inv 10); [lia|]. change (inject_Z 10) with 10%Q. lra.
    - apply (pw_lt_inv 10); [lia|]. change (inject_Z 10) with 10%Q. lra. }
  assert (PP : 0 < 10 ^ (p - 1)) by (apply Z.pow_pos_nonneg; lia).
  destruct (udec_ok (Z.to_nat p) k) as (A & B & C); [rewrite Z2Nat.id by lia; lia | lia|].
  assert (CH := point_chars). unfold print_g. rewrite ES. set (ds := udec (Z.to_nat p) k []) in *.
  destruct ((-4 <=? x) && (x <? p)).
  - destruct (x <? 0) eqn:XN.
    + split; [discriminate|]. split; [cbn; lia|]. constructor; [left; lia|]. apply CH. apply strip_digits. apply Forall_app. split; [|auto].
      clear. induction (Z.to_nat (- x - 1)); constructor; auto; lia.
    + apply Z.ltb_ge in XN. destruct ds as [|c r] eqn:ED; [congruence|]. pose proof (Forall_inv B) as Dc. cbv beta in Dc.
      replace (Z.to_nat (x + 1)) with (S (Z.to_nat x)) by lia. cbn [firstn skipn app].
      split; [discriminate|]. split; [exact Dc|]. constructor; [left; exact Dc|]. apply Forall_inv_tail in B.
      rewrite <- (firstn_skipn (Z.to_nat x) r) in B. apply Forall_app in B. destruct B as [B1 B2].
      apply Forall_app. split; [apply digits_chars; auto | apply CH, strip_digits; auto].
  - destruct ds as [|c r]; [congruence|]. pose proof (Forall_inv B) as Dc. cbv beta in Dc. apply Forall_inv_tail in B.
    split; [discriminate|]. split; [exact Dc|]. constructor; [left; exact Dc|]. apply Forall_app. split; [apply CH, strip_digits; auto|].
    apply exponent_chars. change (10 ^ 19) with 10000000000000000000. lia.
Qed.
Lemma num_json_text : forall dp x, double x -> is_normal x = true -> num_text (num_to_json dp x).
Proof.
  intros dp x D NR. unfold num_to_json. rewrite NR. cbn [negb]. destruct (is_integer x) eqn:IT.
  - assert (TW : exists n, 0 <= n < 10 ^ 20 /\ (itoa10 (to_wide x) = udec 20 n [] \/ itoa10 (to_wide x) = 45 :: udec 20 n [])).
    { destruct x as [s|s| |s m e]; try discriminate; [exists 0; split; [lia | left; reflexivity]|].
      destruct (integer_text s m e IT) as (n & Hn & _ & ->). exists n. change (2 ^ 63) with 9223372036854775808 in Hn. change (10 ^ 20) with 100000000000000000000.
      split; [lia|]. destruct s; [right | left]; reflexivity. }
    destruct TW as (n & Hn & TW). destruct (udec_ok 20 n) as (_ & B & C); [change (Z.of_nat 20) with 20; lia | lia|].
    assert (F : 48 <= at_ (udec 20 n []) 0 <= 57) by (destruct (udec 20 n []); [congruence | exact (Forall_inv B)]).
    destruct TW as [-> | ->].
    + split; [exact C|]. split; [right; exact F | apply digits_chars; auto].
    + split; [discriminate|]. split; [left; reflexivity|]. constructor; [right; cbn; tauto | apply digits_chars; auto].
  - destruct x as [s|s| |s m e]; try discriminate. cbn [dtoa].
    assert (PP : 1 <= dtoa_prec dp).
    { unfold dtoa_prec. cbv zeta. destruct (Z.leb_spec (if dp - 1 <=? 0 then 17 + (dp - 1) else dp - 1) 0); lia. }
    destruct (print_g_chars (dtoa_prec dp) m e PP D) as (A & B & C). destruct s; cbn [app].
    + split; [discriminate|]. split; [left; reflexivity|]. constructor; [right; cbn; tauto | auto].
    + split; [auto|]. split; [right; auto | auto].
Qed.

Lemma normal_is : forall x v, double x -> value x = Some v -> (v == 0)%Q \/ (min_normal <= Qabs v)%Q -> is_normal x = true.
Proof.
  intros x v D V H. destruct x as [s|s| |s m e]; cbn [value] in V; try discriminate; [reflexivity|]. injection V as <-. cbn [is_normal is_subnormal].
  destruct (Z.ltb_spec (Zpos m) (2 ^ 52)) as [L|]; [|reflexivity]. exfalso.
  assert (e = -1074) as -> by (destruct D; lia). assert (U := p2_pos (-1074)).
  assert (P1 : (0 < inject_Z (Zpos m))%Q) by (apply inj_pos; lia).
  set (a := (inject_Z (Zpos m) * 2 ^ (-1074))%Q). assert (AP : (0 < a)%Q) by (unfold a; apply Qmult_lt_0_compat; auto).
  assert (AU : (a < min_normal)%Q).
  { unfold a. apply inj_lt' in L. rewrite p2_Z in L by lia.
    assert (X : (inject_Z (Zpos m) * 2 ^ (-1074) < 2 ^ 52 * 2 ^ (-1074))%Q) by (apply Qmult_lt_compat_r; auto).
    rewrite <- p2_plus in X. exact X. }
  assert (S : (inject_Z (if s then Zneg m else Zpos m) * 2 ^ (-1074) == (if s then - a else a))%Q).
  { unfold a. destruct s; [|reflexivity]. change (Zneg m) with (- Zpos m). rewrite inject_Z_opp. ring. }
  destruct H as [H|H]; rewrite S in H; destruct s; try lra.
  - rewrite Qabs_opp, Qabs_pos in H; lra.
  - rewrite Qabs_pos in H; lra.
Qed.
Lemma json_string_same : forall dp x, is_normal x = true -> num_to_json dp x = num_to_string dp x.
Proof. intros dp x H. unfold num_to_json, num_to_string. rewrite H. reflexivity. Qed.
