From Coq Require Import ZArith List Bool Lia.
Import ListNotations.
From Verif Require Import Bits DictModel DictSpec.
Local Open Scope Z_scope.

(** * Fuel *)
Lemma skip_zeros_len : forall s t n, skip_zeros s = (t, n) -> (length t <= length s)%nat.
Proof.
  induction s as [|c r IH]; intros t n H; cbn [skip_zeros] in H; [injection H as <- <-; lia|].
  destruct (_ && _); [|injection H as <- <-; lia]. destruct (skip_zeros r) as [t' n'].
  injection H as <- <-. specialize (IH _ _ eq_refl). cbn [length]. lia.
Qed.
Lemma skip_comma_len : forall s, (length (skip_comma s) <= length s)%nat.
Proof. intros [|c r]; simpl; auto. destruct (c =? 44); simpl; lia. Qed.
Lemma hd0_digit : forall s, isdigit (hd0 s) = true -> exists c r, s = c :: r /\ isdigit c = true.
Proof. intros [|c r] H; [discriminate|]. eauto. Qed.
Lemma skip_zeros_digit : forall s t n, skip_zeros s = (t, n) -> isdigit (hd0 s) = true -> isdigit (hd0 t) = true.
Proof.
  induction s as [|c r IH]; intros t n H Hd; cbn [skip_zeros] in H; [injection H as <- <-; auto|].
  destruct (_ && _) eqn:E; [|injection H as <- <-; auto]. destruct (skip_zeros r) as [t' n'].
  injection H as <- <-. apply andb_true_iff in E. eapply IH; eauto. tauto.
Qed.

Lemma numbers_mono : forall f l r d x, numbers f l r d = Some x -> forall f', (f <= f')%nat -> numbers f' l r d = Some x.
Proof.
  induction f as [|f IH]; intros l r d x H f' Hf; [discriminate|]. destruct f' as [|f']; [lia|].
  cbn [numbers] in H |- *. destruct (negb (isdigit (hd0 (skip_comma (tl r))))); auto.
  destruct (negb (isdigit (hd0 (skip_comma (tl l))))); auto. eapply IH; eauto; lia.
Qed.
Lemma numbers_total : forall f l r d, (length l < f)%nat -> exists x, numbers f l r d = Some x /\
  forall l' r', x = inr (l', r') -> isdigit (hd0 l) = true -> (length l' < length l)%nat.
Proof.
  induction f as [|f IH]; intros l r d Hf; [lia|]. cbn [numbers]. cbv zeta.
  set (d' := if d =? 0 then _ else d).
  assert (LT : isdigit (hd0 l) = true -> (length (skip_comma (tl l)) < length l)%nat).
  { intros H. destruct (hd0_digit l H) as (c & t & -> & _). cbn [tl length]. pose proof (skip_comma_len t). lia. }
  destruct (isdigit (hd0 (skip_comma (tl r)))) eqn:E1; cbn [negb].
  - destruct (isdigit (hd0 (skip_comma (tl l)))) eqn:E2; cbn [negb]; [|eexists; split; [reflexivity | discriminate]].
    destruct l as [|c t]; [discriminate|]. cbn [tl] in *. pose proof (skip_comma_len t) as L. cbn [length] in Hf.
    destruct (IH (skip_comma t) (skip_comma (tl r)) d' ltac:(lia)) as (x & -> & Hx). exists x. split; auto.
    intros l' r' -> _. specialize (Hx l' r' eq_refl E2). cbn [length]. lia.
  - destruct (isdigit (hd0 (skip_comma (tl l)))) eqn:E2; [eexists; split; [reflexivity | discriminate]|].
    destruct (negb (d' =? 0)); eexists; (split; [reflexivity|]); [discriminate|].
    intros l' r' H Hd. injection H as <- <-. auto.
Qed.

Lemma compare_mono : forall f l r d x, compare_loop f l r d = Some x -> forall f', (f <= f')%nat -> compare_loop f' l r d = Some x.
Proof.
  induction f as [|f IH]; intros l r d x H f' Hf; [discriminate|]. destruct f' as [|f']; [lia|].
  cbn [compare_loop] in H |- *. destruct (isdigit (hd0 r) && isdigit (hd0 l)).
  - destruct (skip_zeros r) as [r1 zr], (skip_zeros l) as [l1 zl].
    destruct (numbers (S (length l1)) l1 r1 0) as [[y | [l2 r2]]|]; auto. eapply IH; eauto; lia.
  - repeat match type of H with
    | (if ?b then _ else _) = _ => destruct b; auto
    end; try (eapply IH; eauto; lia).
Qed.
Lemma compare_total : forall f l r d, (length l < f)%nat -> exists x, compare_loop f l r d = Some x.
Proof.
  induction f as [|f IH]; intros l r d Hf; [lia|]. cbn [compare_loop].
  destruct (isdigit (hd0 r) && isdigit (hd0 l)) eqn:E.
  - destruct (skip_zeros r) as [r1 zr] eqn:Er, (skip_zeros l) as [l1 zl] eqn:El.
    destruct (numbers_total (S (length l1)) l1 r1 0 ltac:(lia)) as (x & -> & Hx).
    destruct x as [y | [l2 r2]]; eauto. apply andb_true_iff in E.
    specialize (Hx _ _ eq_refl (skip_zeros_digit _ _ _ El (proj2 E))). apply skip_zeros_len in El.
    apply IH. lia.
  - cbv zeta. assert (N : forall d', exists x, (if hd0 l =? 0 then Some d' else compare_loop f (tl l) (tl r) d') = Some x).
    { intros d'. destruct (hd0 l =? 0) eqn:E0; eauto. destruct l as [|c t]; [discriminate|]. apply IH. cbn [tl length] in *. lia. }
    repeat match goal with |- context [if ?b then _ else _] =>
      match b with hd0 l =? 0 => fail 1 | _ => destruct b; eauto end end.
Qed.

(** * Swapping the arguments *)
Definition flip (x : option (Z + list Z * list Z)) : option (Z + list Z * list Z) :=
  match x with
  | None => None
  | Some (inl d) => Some (inl (- d))
  | Some (inr (l, r)) => Some (inr (r, l))
  end.
Lemma numbers_flip : forall f l r d, numbers f r l (- d) = flip (numbers f l r d).
Proof.
  induction f as [|f IH]; intros l r d; [reflexivity|]. cbn [numbers]. cbv zeta.
  assert (Ed : (if - d =? 0 then hd0 r - hd0 l else - d) = - (if d =? 0 then hd0 l - hd0 r else d)).
  { destruct (Z.eqb_spec d 0), (Z.eqb_spec (- d) 0); lia. }
  rewrite Ed. set (d' := if d =? 0 then _ else d).
  destruct (isdigit (hd0 (skip_comma (tl r)))), (isdigit (hd0 (skip_comma (tl l)))); cbn [negb]; auto.
  destruct (Z.eqb_spec d' 0), (Z.eqb_spec (- d') 0); try lia; reflexivity.
Qed.
Lemma compare_flip : forall f l r d, (length l < f)%nat -> (length r < f)%nat ->
  compare_loop f r l (- d) = option_map Z.opp (compare_loop f l r d).
Proof.
  induction f as [|f IH]; intros l r d Hl Hr; [lia|]. cbn [compare_loop]. rewrite (andb_comm (isdigit (hd0 l))).
  destruct (isdigit (hd0 r) && isdigit (hd0 l)) eqn:E.
  - destruct (skip_zeros r) as [r1 zr] eqn:Er, (skip_zeros l) as [l1 zl] eqn:El. apply andb_true_iff in E.
    assert (Ed : (if - d =? 0 then zr - zl else - d) = - (if d =? 0 then zl - zr else d)).
    { destruct (Z.eqb_spec d 0), (Z.eqb_spec (- d) 0); lia. }
    rewrite Ed. set (d' := if d =? 0 then _ else d).
    destruct (numbers_total (S (length l1)) l1 r1 0 ltac:(lia)) as (x & Ex & Hx).
    destruct (numbers_total (S (length r1)) r1 l1 0 ltac:(lia)) as (y & Ey & Hy).
    assert (XY : Some y = flip (Some x)).
    { rewrite <- (numbers_mono _ _ _ _ _ Ex (S (length l1) + S (length r1))), <- (numbers_mono _ _ _ _ _ Ey (S (length l1) + S (length r1))) by lia.
      change 0 with (- 0) at 1. apply numbers_flip. }
    rewrite Ex, Ey. destruct x as [x | [l2 r2]]; cbn [flip] in XY; injection XY as ->; [reflexivity|].
    specialize (Hx _ _ eq_refl (skip_zeros_digit _ _ _ El (proj2 E))).
    specialize (Hy _ _ eq_refl (skip_zeros_digit _ _ _ Er (proj1 E))).
    apply skip_zeros_len in El. apply skip_zeros_len in Er. apply IH; lia.
  - cbv zeta. set (nl := fun d' => if hd0 l =? 0 then Some d' else compare_loop f (tl l) (tl r) d').
    set (nr := fun d' => if hd0 r =? 0 then Some d' else compare_loop f (tl r) (tl l) d').
    change (if hd0 l =? 0 then Some d else compare_loop f (tl l) (tl r) d) with (nl d).
    assert (N : forall d', (hd0 l = 0 <-> hd0 r = 0) -> nr (- d') = option_map Z.opp (nl d')).
    { intros d' H. unfold nl, nr. destruct (Z.eqb_spec (hd0 l) 0), (Z.eqb_spec (hd0 r) 0); try tauto.
      destruct l as [|c t]; [contradiction|]. destruct r as [|c' t']; [contradiction|]. cbn [tl length] in *. apply IH; lia. }
    assert (A1 : (if - d =? 0 then 1 else - d) = - (if d =? 0 then -1 else d)) by (destruct (Z.eqb_spec d 0), (Z.eqb_spec (- d) 0); lia).
    assert (A2 : (if - d =? 0 then -1 else - d) = - (if d =? 0 then 1 else d)) by (destruct (Z.eqb_spec d 0), (Z.eqb_spec (- d) 0); lia).
    destruct (Z.eqb_spec (hd0 r - hd0 l) 0), (Z.eqb_spec (hd0 l - hd0 r) 0); try lia; [apply N; lia|].
    destruct (isupper (hd0 l)) eqn:U1, (islower (hd0 l)) eqn:L1, (isupper (hd0 r)) eqn:U2, (islower (hd0 r)) eqn:L2;
      unfold isupper, islower in U1, L1, U2, L2; cbn [andb]; try (cbn [option_map]; f_equal; lia); try (exfalso; zb).
    all: try destruct (Z.eqb_spec (hd0 l + 32 - hd0 r) 0); try destruct (Z.eqb_spec (hd0 r - (hd0 l + 32)) 0);
         try destruct (Z.eqb_spec (hd0 r + 32 - hd0 l) 0); try destruct (Z.eqb_spec (hd0 l - (hd0 r + 32)) 0);
         cbn [negb]; try lia; try (cbn [option_map]; f_equal; lia).
    all: rewrite ?A1, ?A2.
    all: apply N; zb.
Qed.
