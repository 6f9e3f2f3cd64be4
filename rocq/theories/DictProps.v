(** Property C39: dictionary order (Array.sort, Jsi_DictionaryCompare). *)
From Coq Require Import ZArith List Bool Lia.
Import ListNotations.
From Verif Require Import Bits DictModel DictSpec DictProofs DictProofs2 DictProofs3.
Local Open Scope Z_scope.

(** The comparison always answers. *)
Theorem dictionary_total : forall a b, exists x, dictionary_compare a b = Some x.
Proof. intros. apply compare_total. lia. Qed.
(** Comparing the other way round gives the opposite number, for all strings. *)
Theorem dictionary_opposite : forall a b x, dictionary_compare a b = Some x -> dictionary_compare b a = Some (- x).
Proof.
  intros a b x H. destruct (dictionary_total b a) as (y & Hy). unfold dictionary_compare in *.
  set (f := (S (length a) + S (length b))%nat).
  pose proof (compare_mono _ _ _ _ _ H f ltac:(unfold f; lia)) as H1.
  pose proof (compare_mono _ _ _ _ _ Hy f ltac:(unfold f; lia)) as H2.
  pose proof (compare_flip f a b 0 ltac:(unfold f; lia) ltac:(unfold f; lia)) as F.
  change (- 0) with 0 in F. rewrite H1, H2 in F. cbn [option_map] in F. rewrite Hy. congruence.
Qed.
Theorem dictionary_reflexive : forall a, dictionary_compare a a = Some 0.
Proof.
  intros a. destruct (dictionary_total a a) as (x & H). pose proof (dictionary_opposite a a x H) as H2.
  rewrite H in *. injection H2 as H2. f_equal. lia.
Qed.

Lemma dict_key : forall a b x, plain a -> plain b -> dictionary_compare a b = Some x ->
  Z.sgn x = verdict (toks (length a) a) (toks (length b) b) 0.
Proof. intros a b x Ha Hb H. eapply compare_key; eauto. Qed.
Lemma sgn_le : forall x, x <= 0 <-> Z.sgn x <= 0. Proof. intros; lia. Qed.

(** On text without [ \ ] ^ _ and backquote it is transitive; strictly so if one step is strict. *)
Theorem dictionary_transitive : forall a b c x y z, plain a -> plain b -> plain c ->
  dictionary_compare a b = Some x -> dictionary_compare b c = Some y -> dictionary_compare a c = Some z ->
  x <= 0 -> y <= 0 -> z <= 0 /\ (x < 0 \/ y < 0 -> z < 0).
Proof.
  intros a b c x y z Pa Pb Pc Hx Hy Hz Lx Ly.
  apply dict_key in Hx; auto. apply dict_key in Hy; auto. apply dict_key in Hz; auto.
  unfold verdict in *. cbn [Z.eqb] in *.
  set (A := toks (length a) a) in *. set (B := toks (length b) b) in *. set (C := toks (length c) c) in *.
  destruct (Z.eqb_spec (lexz (pk A) (pk B)) 0) as [E1|E1], (Z.eqb_spec (lexz (pk B) (pk C)) 0) as [E2|E2].
  - apply lexz_0 in E1. apply lexz_0 in E2. rewrite E1, E2, lexz_refl in Hz. cbn [Z.eqb] in Hz.
    destruct (lexz_trans (sk A) (sk B) (sk C) ltac:(lia) ltac:(lia)) as [H1 H2].
    split; [lia|]. intros Hs. destruct (Z.eq_dec (lexz (sk A) (sk C)) 0) as [E3|E3]; [|lia].
    destruct (H2 E3) as [E4 E5]. rewrite E4, E5, !lexz_refl in *. lia.
  - apply lexz_0 in E1. rewrite E1 in Hz. destruct (Z.eqb_spec (lexz (pk B) (pk C)) 0); [contradiction|]. lia.
  - apply lexz_0 in E2. rewrite <- E2 in Hz. destruct (Z.eqb_spec (lexz (pk A) (pk B)) 0); [contradiction|]. lia.
  - destruct (lexz_trans (pk A) (pk B) (pk C) ltac:(lia) ltac:(lia)) as [H1 H2].
    destruct (Z.eqb_spec (lexz (pk A) (pk C)) 0) as [E3|E3]; [|lia].
    destruct (H2 E3) as [E4 E5]. rewrite E4, lexz_refl in E1. contradiction.
Qed.
(** and, where no comma follows a digit, distinguishes different texts. *)
Theorem dictionary_equal : forall a b, plain a -> plain b -> no_digit_comma a -> no_digit_comma b ->
  dictionary_compare a b = Some 0 -> a = b.
Proof.
  intros a b Pa Pb Na Nb H. apply dict_key in H; auto. unfold verdict in H. cbn [Z.eqb Z.sgn] in H.
  destruct (Z.eqb_spec (lexz (pk (toks (length a) a)) (pk (toks (length b) b))) 0) as [E|E]; [|congruence].
  apply lexz_0 in E. symmetry in H. apply lexz_0 in H.
  pose proof (keys_inj _ _ (toks_wf _ a Pa) (toks_wf _ b Pb) E H) as K.
  rewrite <- (toks_text (length a) a), <- (toks_text (length b) b) by auto. congruence.
Qed.
(** Numbers inside texts that agree before them are ordered by their values. *)
Theorem dictionary_numbers : forall p ds es r1 r2 x, cbytes p -> before_number p ->
  ds <> [] -> es <> [] -> Forall digit ds -> Forall digit es -> after_number r1 -> after_number r2 ->
  dictionary_compare (p ++ ds ++ r1) (p ++ es ++ r2) = Some x ->
  (value ds < value es -> x < 0) /\ (value es < value ds -> x > 0).
Proof.
  intros p ds es r1 r2 x Hb Hp N1 N2 D1 D2 A1 A2 H. unfold dictionary_compare in H.
  set (f := S (length (p ++ ds ++ r1))) in *.
  destruct (compare_total f (ds ++ r1) (es ++ r2) 0) as (v & Hv); [unfold f; rewrite (app_length p); lia|].
  pose proof (compare_prefix f p (ds ++ r1) (es ++ r2) 0 v x Hp Hb ltac:(unfold f; lia) Hv H) as ->.
  assert (G : value ds <> value es -> Z.sgn x = Z.sgn (value ds - value es)) by (intros NE; exact (compare_digits f ds es r1 r2 0 x N1 N2 D1 D2 A1 A2 Hv NE)).
  split; intros L; specialize (G ltac:(lia)); lia.
Qed.
(** Texts without digits are ordered alphabetically with letters compared regardless of case. *)
Theorem dictionary_case : forall a b x, plain a -> plain b ->
  Forall (fun c => ~ digit c) a -> Forall (fun c => ~ digit c) b -> dictionary_compare a b = Some x ->
  before (map DictSpec.lower a) (map DictSpec.lower b) -> x < 0.
Proof.
  intros a b x Pa Pb Da Db H HB. apply dict_key in H; auto. unfold verdict in H. cbn [Z.eqb] in H.
  rewrite !toks_nodigit, !pk_chr in H by auto. apply lexz_before in HB.
  destruct (Z.eqb_spec (lexz (map lower a) (map lower b)) 0); lia.
Qed.

(** Refuted in general: Z < _ < a < Z is a cycle (each is less than the next), and "1,0" and "10"
    compare equal. *)
Theorem dictionary_cycle_refuted : 
  (exists x, dictionary_compare [90] [95] = Some x /\ x < 0) /\
  (exists x, dictionary_compare [95] [97] = Some x /\ x < 0) /\
  (exists x, dictionary_compare [97] [90] = Some x /\ x < 0).
Proof. repeat split; eexists; (split; [vm_compute; reflexivity | lia]). Qed.
Theorem dictionary_comma_refuted : dictionary_compare [49; 44; 48] [49; 48] = Some 0.
Proof. reflexivity. Qed.

(** Non-vacuity: bigBoy < Bigboy2 < bigboy10 < bigboy010 *)
Example dict_ex :
  let b s := [98; 105; 103] ++ s in
  plain (b [66; 111; 121]) /\ plain (b [98; 111; 121; 49; 48]) /\ no_digit_comma (b [98; 111; 121; 49; 48]) /\
  before_number (b [98; 111; 121]) /\ after_number [46; 99] /\
  (exists x, dictionary_compare (b [66; 111; 121]) ([66; 105; 103; 98; 111; 121; 50]) = Some x /\ x < 0) /\
  (exists x, dictionary_compare ([66; 105; 103; 98; 111; 121; 50]) (b [98; 111; 121; 49; 48]) = Some x /\ x < 0) /\
  (exists x, dictionary_compare (b [98; 111; 121; 49; 48]) (b [98; 111; 121; 48; 49; 48]) = Some x /\ x < 0).
Proof.
  assert (L : forall s, (forall u d v, s = u ++ d :: 44 :: v -> False) -> no_digit_comma s) by (intros s H u d v E _; eauto).
  cbv zeta. cbn [app]. split; [repeat constructor; lia|]. split; [repeat constructor; lia|]. split.
  { apply L. intros u d v E. assert (In 44 (u ++ d :: 44 :: v)) as X by (apply in_or_app; right; right; left; reflexivity).
    rewrite <- E in X. cbn [In] in X. lia. }
  split.
  { intros u c E. change [98; 105; 103; 98; 111; 121] with ([98; 105; 103; 98; 111] ++ [121]) in E.
    apply app_inj_tail in E. destruct E as [_ <-]. unfold digit. lia. }
  split; [intros c u E; injection E as <- _; unfold digit; lia|].
  repeat split; eexists; (split; [vm_compute; reflexivity | lia]).
Qed.

Print Assumptions dictionary_opposite.
Print Assumptions dictionary_transitive.
Print Assumptions dictionary_equal.
Print Assumptions dictionary_numbers.
Print Assumptions dictionary_case.
