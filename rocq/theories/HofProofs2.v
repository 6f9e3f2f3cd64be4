(** Array operations never shrink the block, and keep it within the limit. *)
From Coq Require Import ZArith List Bool Lia.
Import ListNotations.
Require Import Verif.Bits Verif.ArrayModel Verif.ArraySpec Verif.ArrayProofs Verif.ArrayProofs2 Verif.ArrayProofs3 Verif.HofModel Verif.HofSpec Verif.HofProofs.
Local Open Scope nat_scope.

Section B.
Variable C : Type.
Variable u : C.
Variable M : nat.
Definition blk (a a' : arr) : Prop := length (sl a) <= length (sl a') /\ (length (sl a) <= M -> length (sl a') <= M).
Lemma blk_refl a : blk a a. Proof. split; auto. Qed.
Lemma blk_trans a b c : blk a b -> blk b c -> blk a c.
Proof. intros [H1 H2] [H3 H4]. split; [lia|auto]. Qed.
Lemma blk_same l n l' n' : length l = length l' -> blk (mkA l n) (mkA l' n').
Proof. intros H. split; cbn [sl]; lia. Qed.
Lemma blk_len a l' n' : length (sl a) = length l' -> blk a (mkA l' n').
Proof. intros H. split; cbn [sl]; lia. Qed.
Lemma some_eq {A} (x y : A) : Some x = Some y -> x = y. Proof. congruence. Qed.
Ltac inv H := injection H; clear H; intros; subst.

Lemma sizer_blk a n a' : sizer M a n = Some a' -> blk a a'.
Proof.
  unfold sizer. pose proof (nsiz_bounds n) as B. destruct (Nat.leb_spec M n); [discriminate|]. destruct (Nat.ltb_spec M (nsiz_of n)); [discriminate|].
  cbn [orb]. intros H1. inv H1. destruct (Nat.leb_spec (length (sl a)) n).
  - split; cbn [sl]; rewrite app_length, repeat_length; lia.
  - apply blk_len. reflexivity.
Qed.
Lemma set_length_blk a n a' : set_length a n = Some a' -> blk a a' /\ length (sl a') = length (sl a).
Proof. unfold set_length. destruct (n <=? length (sl a)); [|discriminate]. intros H. inv H. split; [apply blk_len|]; reflexivity. Qed.
Lemma put_l l i v l' : put l i v = Some l' -> length l' = length l.
Proof.
  unfold put. destruct (Nat.ltb_spec i (length l)); [|discriminate]. intros H1. apply some_eq in H1. subst l'. rewrite app_length, firstn_length. cbn [length].
  rewrite skipn_length. lia.
Qed.
Lemma memmove_l l a b n l' : memmove l a b n = Some l' -> length l' = length l.
Proof.
  unfold memmove. destruct (Nat.leb_spec (b + n) (length l)); [|discriminate]. destruct (Nat.leb_spec (a + n) (length l)); [|discriminate].
  cbn [andb]. intros H1. apply some_eq in H1. subst l'. rewrite !app_length, !firstn_length, !skipn_length. lia.
Qed.
Lemma put_all_l vs : forall l i l', put_all l i vs = Some l' -> length l' = length l.
Proof.
  induction vs as [|v vs IH]; intros l i l'; cbn [put_all]; [intros H; now inv H|]. destruct (put l i v) as [l1|] eqn:E; [|discriminate].
  intros H. apply IH in H. apply put_l in E. lia.
Qed.
Lemma rev_l m : forall i n l l', rev_loop m i n l = Some l' -> length l' = length l.
Proof.
  induction m as [|m IH]; intros i n l l'; cbn [rev_loop]; [intros H; now inv H|].
  destruct (get l i) as [x|]; [|discriminate]. destruct (get l n) as [y|]; [|discriminate]. destruct (put l i y) as [l1|] eqn:E1; [|discriminate].
  destruct (put l1 n x) as [l2|] eqn:E2; [|discriminate]. intros H. apply IH in H. apply put_l in E1, E2. lia.
Qed.
Lemma wr_l (h : list C) p c : length h <= length (wr C h p c).
Proof. unfold wr. rewrite app_length, firstn_length. cbn [length]. rewrite skipn_length. lia. Qed.
Lemma fill_l k : forall i v h l h' l', fill_loop C u k i v h l = Some (h', l') -> length l' = length l /\ length h <= length h'.
Proof.
  induction k as [|k IH]; intros i v h l h' l'; cbn [fill_loop]; [intros H; now inv H|].
  destruct (get l i) as [[p|]|]; [| |discriminate].
  - intros H. apply IH in H. pose proof (wr_l h p (rd C u h v)). lia.
  - unfold dup. destruct (put l i _) as [l1|] eqn:E; [|discriminate]. intros H. apply IH in H. apply put_l in E. rewrite app_length in H. lia.
Qed.
Lemma take_l k : forall i m l r l' r', take_loop k i m l r = Some (l', r') -> length l' = length l.
Proof.
  induction k as [|k IH]; intros i m l r l' r'; cbn [take_loop]; [intros H; now inv H|].
  destruct (get l i) as [[p|]|]; [| |discriminate]; [|apply IH].
  destruct (put r m _); [|discriminate]. destruct (put l i None) as [l1|] eqn:E; [|discriminate]. intros H. apply IH in H. apply put_l in E. lia.
Qed.
Lemma down_l k : forall i d l l', down_loop k i d l = Some l' -> length l' = length l.
Proof.
  induction k as [|k IH]; intros i d l l'; cbn [down_loop]; [intros H; now inv H|].
  destruct (get l i) as [x|]; [|discriminate]. destruct (put l _ x) as [l1|] eqn:E1; [|discriminate].
  destruct (put l1 i None) as [l2|] eqn:E2; [|discriminate]. intros H. apply IH in H. apply put_l in E1, E2. lia.
Qed.
Lemma up_l k : forall i d l l', up_loop k i d l = Some l' -> length l' = length l.
Proof.
  induction k as [|k IH]; intros i d l l'; cbn [up_loop]; [intros H; now inv H|].
  destruct (get l _) as [x|]; [|discriminate]. destruct (put l _ x) as [l1|] eqn:E1; [|discriminate].
  destruct (put l1 _ None) as [l2|] eqn:E2; [|discriminate]. intros H. apply IH in H. apply put_l in E1, E2. lia.
Qed.
Lemma ins_l items : forall h l m h' l', ins_loop C u h l m items = Some (h', l') -> length l' = length l /\ length h <= length h'.
Proof.
  induction items as [|p r IH]; intros h l m h' l'; cbn [ins_loop]; [intros H; now inv H|]. unfold dup.
  destruct (put l m _) as [l1|] eqn:E; [|discriminate]. intros H. apply IH in H. apply put_l in E. rewrite app_length in H. lia.
Qed.
Lemma array_set_blk a v n a' : array_set M a v n = Some (Some a') -> blk a a'.
Proof.
  unfold array_set. destruct (sizer M a (n + 1)) as [a1|] eqn:E; [|discriminate]. apply sizer_blk in E.
  destruct (put (sl a1) n v) as [s|] eqn:P; [|discriminate]. apply put_l in P. cbn [cnt].
  destruct (_ <? _).
  - destruct (set_length _ _) as [a2|] eqn:L; [|discriminate]. apply set_length_blk in L as [_ L]. cbn [option_map]. intros H. inv H.
    eapply blk_trans; [exact E|]. cbn [sl] in L. split; cbn [sl] in *; lia.
  - intros H. inv H. eapply blk_trans; [exact E|]. apply blk_len. lia.
Qed.
Lemma push_loop_blk args : forall a c0 i a', push_loop M a c0 i args = Some a' -> blk a a'.
Proof.
  induction args as [|v args IH]; intros a c0 i a'; cbn [push_loop]; [intros H; inv H; apply blk_refl|].
  destruct (_ <? _); [|apply IH]. destruct (array_set M a v (c0 + i)) as [[a1|]|] eqn:E; [| |discriminate].
  - intros H. eapply blk_trans; [eapply array_set_blk; eauto|eauto].
  - apply IH.
Qed.
Lemma call_blk h a k h' a' : do_call C u M h a k = Some (h', a') -> blk a a' /\ length h <= length h'.
Proof.
  destruct k as [xs| | |xs| |c s e|s n xs|n c]; cbn [do_call].
  - unfold push. destruct (push_loop M a (cnt a) 0 _) as [a1|] eqn:E; [|discriminate]. cbn [option_map fst]. intros H. inv H.
    split; [eapply push_loop_blk; eauto|]. rewrite app_length. lia.
  - unfold pop. destruct (cnt a =? 0); [intros H; inv H; split; [apply blk_refl|auto]|].
    destruct (get _ _) as [[p|]|]; [| |discriminate].
    + destruct (put _ _ _) as [s|] eqn:P; [|discriminate]. apply put_l in P. destruct (set_length _ _) as [a1|] eqn:L; [|discriminate].
      apply set_length_blk in L as [_ L]. cbn [option_map fst sl] in *. intros H. inv H. split; [split; cbn [sl] in *; lia|auto].
    + destruct (set_length _ _) as [a1|] eqn:L; [|discriminate]. apply set_length_blk in L as [L _]. cbn [option_map fst]. intros H. inv H. auto.
  - unfold shift. destruct (cnt a =? 0); [intros H; inv H; split; [apply blk_refl|auto]|].
    destruct (get _ _) as [v|]; [|discriminate]. destruct (memmove _ _ _ _) as [s|] eqn:E1; [|discriminate]. apply memmove_l in E1.
    destruct (put s _ None) as [s'|] eqn:P; [|discriminate]. apply put_l in P. destruct v as [p|].
    + unfold dup. destruct (set_length _ _) as [a1|] eqn:L; [|discriminate]. apply set_length_blk in L as [_ L]. cbn [option_map fst sl] in *.
      intros H. inv H. split; [split; cbn [sl] in *; lia|rewrite app_length; lia].
    + cbn [option_map fst]. intros H. inv H. split; [apply blk_len; lia|auto].
  - unfold unshift. destruct (_ =? 0).
    + intros H. inv H. split; [apply blk_refl|rewrite app_length; lia].
    + destruct (sizer M a _) as [a1|] eqn:E; [|intros H; inv H; split; [apply blk_refl|rewrite app_length; lia]]. apply sizer_blk in E.
      destruct (memmove _ _ _ _) as [s|] eqn:E1; [|discriminate]. apply memmove_l in E1.
      destruct (put_all s 0 _) as [s'|] eqn:P; [|discriminate]. apply put_all_l in P.
      destruct (set_length _ _) as [a2|] eqn:L; [|discriminate]. apply set_length_blk in L as [_ L]. cbn [sl] in *.
      intros H. inv H. split; [|rewrite app_length; lia]. eapply blk_trans; [exact E|]. split; cbn [sl] in *; lia.
  - unfold reverse. destruct (rev_loop _ _ _ _) as [s|] eqn:E; [|discriminate]. apply rev_l in E. cbn [option_map]. intros H. inv H.
    split; [apply blk_len; lia|auto].
  - unfold fill. intros H. assert (Z0 : blk a a /\ length h <= length (h ++ [c])) by (split; [apply blk_refl|rewrite app_length; lia]).
    destruct (range_start _ _); [|inv H; exact Z0]. destruct (cnt a =? 0); [inv H; exact Z0|]. destruct (range_end _ _); [|inv H; exact Z0].
    destruct (fill_loop _ _ _ _ _ _ _) as [[h1 l1]|] eqn:E; [|discriminate]. apply fill_l in E. rewrite app_length in E. inv H.
    split; [apply blk_len; lia|lia].
  - unfold splice. assert (HX : length h <= length (h ++ xs)) by (rewrite app_length; lia).
    destruct (_ <? _)%Z; [intros H; inv H; split; [apply blk_refl|auto]|]. destruct (_ <? 0)%Z; [intros H; inv H; split; [apply blk_refl|auto]|].
    destruct (sizer M empty _) as [b|]; [|intros H; inv H; split; [apply blk_refl|auto]].
    destruct (take_loop _ _ _ _ _) as [[l r]|] eqn:E1; [|discriminate]. apply take_l in E1.
    destruct (set_length _ _) as [b1|]; [|discriminate].
    match goal with |- context [if ?b then Some l else down_loop ?x ?y ?z l] => destruct (if b then Some l else down_loop x y z l) as [l2|] eqn:E2; [|discriminate] end.
    assert (L2 : length l2 = length l) by (revert E2; destruct (_ =? 0); [intros H; now inv H|apply down_l]). clear E2.
    cbv zeta. destruct (sizer M (mkA l2 (cnt a)) _) as [a1|] eqn:E3.
    2: { intros H. inv H. split; [apply blk_len; lia|auto]. }
    apply sizer_blk in E3. destruct (seq (length h) (length xs)) as [|q qs] eqn:Q.
    + destruct (set_length _ _) as [a2|] eqn:L; [|discriminate]. apply set_length_blk in L as [_ L]. cbn [sl] in L. intros H. inv H. split; [|auto].
      eapply blk_trans; [|eapply blk_trans; [exact E3|]]; [apply blk_len; lia|split; cbn [sl] in *; lia].
    + destruct (up_loop _ _ _ _) as [l3|] eqn:E4; [|discriminate]. apply up_l in E4.
      destruct (ins_loop _ _ _ _ _ _) as [[h2 l4]|] eqn:E5; [|discriminate]. apply ins_l in E5.
      destruct (set_length _ _) as [a2|] eqn:L; [|discriminate]. apply set_length_blk in L as [_ L]. cbn [sl] in L. intros H. inv H. split; [|lia].
      eapply blk_trans; [|eapply blk_trans; [exact E3|]]; [apply blk_len; lia|split; cbn [sl] in *; lia].
  - unfold assign. destruct (sizer M a n) as [a1|] eqn:E; [|intros H; inv H; split; [apply blk_refl|auto]]. apply sizer_blk in E.
    destruct (get _ _) as [[p|]|]; [| |discriminate].
    + intros H. inv H. split; [exact E|apply wr_l].
    + destruct (put _ _ _) as [l|] eqn:P; [|discriminate]. apply put_l in P. cbn [cnt].
      destruct (_ <? _).
      * destruct (set_length _ _) as [a2|] eqn:L; [|discriminate]. apply set_length_blk in L as [_ L]. cbn [sl] in L. intros H. inv H.
        split; [|rewrite app_length; lia]. eapply blk_trans; [exact E|]. split; cbn [sl] in *; lia.
      * intros H. inv H. split; [|rewrite app_length; lia]. eapply blk_trans; [exact E|]. apply blk_len. lia.
Qed.
Lemma calls_blk ks : forall h a h' a', do_calls C u M h a ks = Some (h', a') -> blk a a' /\ length h <= length h'.
Proof.
  induction ks as [|k ks IH]; intros h a h' a'; cbn [do_calls]; [intros H; inv H; split; [apply blk_refl|auto]|].
  destruct (do_call C u M h a k) as [[h1 a1]|] eqn:E; [|discriminate]. intros H. apply IH in H as [B L]. apply call_blk in E as [B1 L1].
  split; [eapply blk_trans; eauto|lia].
Qed.
Lemma wr_len (h : list C) p c : p < length h -> length (wr C h p c) = length h.
Proof. intros H. unfold wr. rewrite app_length, firstn_length. cbn [length]. rewrite skipn_length. lia. Qed.
End B.
