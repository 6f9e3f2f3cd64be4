(** * Simulation of expressions by the VM. *)
Require Import ZArith List Bool Lia.
From Verif Require Import VmModel VmSpec VmProofs.
Import ListNotations.
Local Open Scope Z_scope.

Section Sim.
Context {VS : vsys}.
Notation V := (val VS).
Notation st := (@state VS).
Notation code := (list (@instr VS)).
Notation cfg := (@cfg VS).

Lemma zlen_nil : forall A, zlen (@nil A) = 0. Proof. reflexivity. Qed.
Lemma zlen_cons : forall A (a : A) l, zlen (a :: l) = zlen l + 1.
Proof. intros. unfold zlen. cbn [length]. lia. Qed.
Lemma zlen_app : forall A (a b : list A), zlen (a ++ b) = zlen a + zlen b.
Proof. intros. unfold zlen. rewrite app_length. lia. Qed.
Lemma zlen_nonneg : forall A (a : list A), 0 <= zlen a.
Proof. intros. unfold zlen. lia. Qed.

(** where a break/continue that leaves the code goes: target and number of slots to pop *)
Definition ktab := kind -> option nat -> option (Z * nat).

Definition ins_at (P : code) (K : ktab) (a : Z) (ins : @instr VS) : Prop :=
  match ins with
  | IRes k l n => match K k l with
                  | Some (t, m) => fetch P a = Some (mkjmp (t - a) (n + m))
                  | None => True
                  end
  | _ => fetch P a = Some ins
  end.

Fixpoint cat (P : code) (K : ktab) (p : Z) (c : code) : Prop :=
  match c with
  | [] => True
  | ins :: c' => ins_at P K p ins /\ cat P K (p + 1) c'
  end.

Lemma cat_app : forall P K c1 c2 p, cat P K p (c1 ++ c2) <-> cat P K p c1 /\ cat P K (p + zlen c1) c2.
Proof.
  induction c1 as [ | a c1 IH]; intros c2 p; cbn [app cat].
  - rewrite zlen_nil, Z.add_0_r. tauto.
  - rewrite IH, zlen_cons. replace (p + 1 + zlen c1) with (p + (zlen c1 + 1)) by lia. tauto.
Qed.

Inductive star (P : code) : nat -> cfg -> cfg -> Prop :=
| star0 : forall c, star P 0 c c
| starS : forall n c c' c'', step P c = Run c' -> star P n c' c'' -> star P (S n) c c''.

Lemma star_trans : forall P n c c', star P n c c' -> forall m c'', star P m c' c'' -> star P (n + m) c c''.
Proof. induction 1; intros; cbn; auto. econstructor; eauto. Qed.

Lemma star_one : forall P c c', step P c = Run c' -> star P 1 c c'.
Proof. intros. econstructor; eauto. constructor. Qed.

(* reach: some number (at least m) of steps *)
Definition reach (P : code) (m : nat) (c c' : cfg) : Prop := exists n, (m <= n)%nat /\ star P n c c'.

Lemma reach_refl : forall P c, reach P 0 c c.
Proof. intros. exists 0%nat. split; auto. constructor. Qed.
Lemma reach_trans : forall P a b c c' c'', reach P a c c' -> reach P b c' c'' -> reach P (a + b) c c''.
Proof. intros P a b c c' c'' [n [H1 H2]] [m [H3 H4]]. exists (n + m)%nat. split; [lia | eapply star_trans; eauto]. Qed.
Lemma reach_weak : forall P a b c c', reach P a c c' -> (b <= a)%nat -> reach P b c c'.
Proof. intros P a b c c' [n [H1 H2]] H. exists n. split; auto; lia. Qed.
Lemma reach_step : forall P c c', step P c = Run c' -> reach P 1 c c'.
Proof. intros. exists 1%nat. split; auto. apply star_one; auto. Qed.
Lemma reach_trans0 : forall P a b c c' c'', reach P a c c' -> reach P b c' c'' -> reach P 0 c c''.
Proof. intros. eapply reach_weak; [eapply reach_trans; eauto | lia]. Qed.

(* the run gets to an instruction in [p, p+L) that raises an exception *)
Definition throws (P : code) (c0 : cfg) (p L : Z) (s : list (@slot VS)) (x : st) (t : list tryent) (b : bool) : Prop :=
  exists c q X, reach P 0 c0 c /\ p <= q < p + L /\ step P c = do_throw q b (X ++ s) x t.

Lemma throws_pre : forall P c0 c1 m p L p1 L1 Y s x t b,
  reach P m c0 c1 -> throws P c1 p1 L1 (Y ++ s) x t b -> p <= p1 -> p1 + L1 <= p + L -> throws P c0 p L s x t b.
Proof.
  intros P c0 c1 m p L p1 L1 Y s x t b R [c [q [X [R2 [Hq E]]]]] H1 H2.
  exists c, q, (X ++ Y). split; [ | split].
  - eapply reach_trans0; eauto.
  - lia.
  - rewrite E, app_assoc. reflexivity.
Qed.

Ltac dostep H := eapply reach_step; unfold step; cbn [ip stk cst tl]; rewrite H; cbn.
Ltac catd :=
  repeat match goal with
  | H : cat _ _ _ (_ ++ _) |- _ => rewrite cat_app in H
  | H : cat _ _ _ (_ :: _) |- _ => cbn [cat ins_at] in H
  | H : cat _ _ _ [] |- _ => clear H
  | H : _ /\ _ |- _ => destruct H
  end.

(* the innermost active try statement, if any, encloses the code in [p, p+L) *)
Definition encl (t : list tryent) (p L : Z) : Prop :=
  match t with [] => True | e :: _ => tstart e < p /\ p + L <= fend e end.
Lemma encl_sub : forall t p L p' L', encl t p L -> p <= p' -> p' + L' <= p + L -> encl t p' L'.
Proof. intros [ | e t] p L p' L' H H1 H2; cbn in *; [auto | lia]. Qed.
Lemma do_jump_in : forall t p L i a (s : list (@slot VS)) x, encl t p L -> p <= a + 1 <= p + L ->
  do_jump i a s x t = Run (mkcfg (a + 1) s x t).
Proof.
  intros [ | e t] p L i a s x H Ha; cbn [do_jump encl] in *; [reflexivity | ].
  unfold in_rng. replace (tstart e <=? a) with true by (symmetry; apply Z.leb_le; lia).
  replace (a <? fend e) with true by (symmetry; apply Z.ltb_lt; lia). reflexivity.
Qed.

Definition good_e (P : code) (e : @expr VS) : Prop :=
  forall K p s x t, encl t p (zlen (comp_e e)) -> cat P K p (comp_e e) ->
  match leval (hold (map inh t)) e x with
  | inl (a, x') => reach P 1 (mkcfg p s x t) (mkcfg (p + zlen (comp_e e)) (a :: s) x' t)
  | inr x' => throws P (mkcfg p s x t) p (zlen (comp_e e)) s x' t false
  end.

Lemma find_frame_wr : forall (fs : list (nat * V)) y i j v b,
  find_frame y j (upd_frame fs i v) b = find_frame y j fs b.
Proof.
  induction fs as [ | [z w] fs IH]; intros y i j v b; [destruct i; reflexivity | ].
  destruct i; cbn [upd_frame find_frame]; [reflexivity | apply IH].
Qed.
Lemma resolve_wr : forall (x : st) l v y, resolve (wrloc x l v) y = resolve x y.
Proof. intros x [z | i] v y; unfold resolve, wrloc; cbn [frames]; [reflexivity | rewrite find_frame_wr; reflexivity]. Qed.
Lemma resolve_emsg : forall (x : st) hd m y, resolve (log_error hd x m) y = resolve x y.
Proof. intros x [ | ] m y; unfold log_error; [destruct (emsg x) | ]; reflexivity. Qed.

Ltac zl := repeat first [rewrite zlen_app | rewrite zlen_cons | rewrite zlen_nil]; repeat match goal with |- context [zlen ?c] => lazymatch goal with H : 0 <= zlen c |- _ => fail | _ => pose proof (zlen_nonneg _ c) end end; lia.
(* finish a reach goal up to the position *)
Lemma reach_eq : forall P m c i i' s x t, reach P m c (mkcfg i s x t) -> i = i' -> reach P m c (mkcfg i' s x t).
Proof. intros; subst; assumption. Qed.

Ltac useE IH K s x t H :=
  let Hn := fresh "HN" in
  match type of H with cat _ _ ?q ?c =>
    assert (Hn : encl t q (zlen c)) by (eapply encl_sub; [eassumption | zl | zl]);
    specialize (IH K q s x t Hn H); clear Hn
  end.

Lemma sim_e : forall P e, good_e P e.
Proof.
  intros P e. unfold good_e. induction e as [v | y | y e IHe | o y e IHe | inc post y | u e IHe | o a IHa b IHb
     | a IHa b IHb | a IHa b IHb | c IHc a IHa b IHb | a IHa b IHb | e IHe]; intros K p s x t HE HC;
    cbn [comp_e leval] in *.
  - catd. eapply reach_eq. dostep H. reflexivity. reflexivity.
  - catd. eapply reach_eq. dostep H. reflexivity. reflexivity.
  - catd. rename H1 into G3, H into G1, H0 into G2. clear H2 || idtac. rename G1 into H1, G2 into H2, G3 into H3.
    assert (R1 : reach P 1 (mkcfg p s x t) (mkcfg (p + 1) (SRef (resolve x y) :: s) x t)) by (dostep H1; reflexivity).
    useE IHe K (SRef (resolve x y) :: s) x t H2.
    destruct (leval (hold (map inh t)) e x) as [[b x'] | x']; cbn [lbind].
    + eapply reach_eq. eapply reach_weak.
      * eapply reach_trans; [exact R1 | ]. eapply reach_trans; [exact IHe | ]. dostep H3. reflexivity.
      * lia.
      * zl.
    + eapply throws_pre with (Y := [_]); [exact R1 | exact IHe | lia | zl].
  - catd.
    assert (R1 : reach P 2 (mkcfg p s x t) (mkcfg (p + 1 + 1) (SRef (resolve x y) :: SRef (resolve x y) :: s) x t)).
    { apply (reach_trans P 1 1 _ (mkcfg (p + 1) (SRef (resolve x y) :: s) x t)); [dostep H; reflexivity | dostep H0; reflexivity]. }
    useE IHe K (SRef (resolve x y) :: SRef (resolve x y) :: s) x t H1.
    destruct (leval (hold (map inh t)) e x) as [[b x'] | x']; cbn [lbind].
    + unfold lop. destruct (binop VS o (rdloc x' (resolve x y)) (deref x' b)) as [v | m] eqn:EO; cbn [lbind].
      * eapply reach_eq. eapply reach_weak.
        { eapply reach_trans; [exact R1 | ]. eapply reach_trans; [exact IHe | ].
          apply (reach_trans P 1 1 _ (mkcfg (p + 1 + 1 + zlen (comp_e e) + 1) (SVal v :: SRef (resolve x y) :: s) x' t)).
          - dostep H2. rewrite EO. reflexivity.
          - dostep H3. reflexivity. }
        { lia. } zl.
      * eapply throws_pre with (Y := [SRef (resolve x y); SRef (resolve x y)]) (p1 := p + 1 + 1 + zlen (comp_e e)) (L1 := 1) (s := s);
          [eapply reach_trans; [exact R1 | exact IHe] | | zl | zl].
        exists (mkcfg (p + 1 + 1 + zlen (comp_e e)) (b :: SRef (resolve x y) :: SRef (resolve x y) :: s) x' t), (p + 1 + 1 + zlen (comp_e e)), [].
        split; [apply reach_refl | split; [lia | ]].
        unfold step; cbn [ip stk cst tl]. rewrite H2. cbn [deref]. rewrite EO. reflexivity.
    + eapply throws_pre with (Y := [_; _]); [exact R1 | exact IHe | zl | zl].
  - catd.
    assert (R1 : reach P 1 (mkcfg p s x t) (mkcfg (p + 1) (SRef (resolve x y) :: s) x t)) by (dostep H; reflexivity).
    destruct (numerr VS (tonum VS (rdloc x (resolve x y)))) as [m | ] eqn:EN.
    + eapply throws_pre with (Y := []) (p1 := p + 1) (L1 := 1); [exact R1 | | zl | zl].
      exists (mkcfg (p + 1) (SRef (resolve x y) :: s) x t), (p + 1), [SVal (step1 VS inc (tonum VS (rdloc x (resolve x y))))].
      split; [apply reach_refl | split; [lia | ]].
      unfold step; cbn [ip stk cst tl]. rewrite H0, EN. reflexivity.
    + eapply reach_eq. eapply reach_weak; [eapply reach_trans; [exact R1 | ] | ].
      * dostep H0. rewrite EN. reflexivity.
      * lia.
      * zl.
  - catd. useE IHe K s x t H. destruct (leval (hold (map inh t)) e x) as [[b x'] | x']; cbn [lbind].
    + unfold lop. destruct (unop VS u (deref x' b)) as [v | m] eqn:EO.
      * eapply reach_eq. eapply reach_weak; [eapply reach_trans; [exact IHe | dostep H0; rewrite EO; reflexivity] | lia]. zl.
      * eapply throws_pre with (Y := []) (p1 := p + zlen (comp_e e)) (L1 := 1); [exact IHe | | zl | zl].
        exists (mkcfg (p + zlen (comp_e e)) (b :: s) x' t), (p + zlen (comp_e e)), [b].
        split; [apply reach_refl | split; [lia | ]].
        unfold step; cbn [ip stk cst tl]. rewrite H0, EO. reflexivity.
    + eapply throws_pre with (Y := []); [apply reach_refl | exact IHe | zl | zl].
  - catd. useE IHa K s x t H. destruct (leval (hold (map inh t)) a x) as [[va x'] | x']; cbn [lbind].
    + useE IHb K (va :: s) x' t H0. destruct (leval (hold (map inh t)) b x') as [[vb x2] | x2]; cbn [lbind].
      * unfold lop. destruct (binop VS o (deref x2 va) (deref x2 vb)) as [v | m] eqn:EO.
        { eapply reach_eq. eapply reach_weak; [eapply reach_trans; [exact IHa | eapply reach_trans; [exact IHb | ]] | ].
          - dostep H1. rewrite EO. reflexivity.
          - lia.
          - zl. }
        { eapply throws_pre with (Y := []) (p1 := p + zlen (comp_e a) + zlen (comp_e b)) (L1 := 1);
            [eapply reach_trans; [exact IHa | exact IHb] | | zl | zl].
          exists (mkcfg (p + zlen (comp_e a) + zlen (comp_e b)) (vb :: va :: s) x2 t), (p + zlen (comp_e a) + zlen (comp_e b)), [va].
          split; [apply reach_refl | split; [lia | ]].
          unfold step; cbn [ip stk cst tl]. rewrite H1, EO. reflexivity. }
      * eapply throws_pre with (Y := [va]); [exact IHa | exact IHb | zl | zl].
    + eapply throws_pre with (Y := []); [apply reach_refl | exact IHa | zl | zl].
  - (* && *)
    catd. useE IHa K s x t H. destruct (leval (hold (map inh t)) a x) as [[va x'] | x']; cbn [lbind].
    + destruct (truthy VS (deref x' va)) eqn:ET.
      * assert (R : reach P 2 (mkcfg (p + zlen (comp_e a)) (va :: s) x' t) (mkcfg (p + zlen (comp_e a) + 1 + 1) s x' t)).
        { apply (reach_trans P 1 1 _ (mkcfg (p + zlen (comp_e a) + 1) (SVal (deref x' va) :: s) x' t)).
          - dostep H0. rewrite ET. reflexivity.
          - dostep H1. reflexivity. }
        useE IHb K s x' t H2. destruct (leval (hold (map inh t)) b x') as [[vb x2] | x2].
        { eapply reach_eq. eapply reach_weak; [eapply reach_trans; [exact IHa | eapply reach_trans; [exact R | exact IHb]] | lia]. zl. }
        { eapply throws_pre with (Y := []); [eapply reach_trans; [exact IHa | exact R] | exact IHb | zl | zl]. }
      * eapply reach_eq. eapply reach_weak; [eapply reach_trans; [exact IHa | ] | ].
        { dostep H0. rewrite ET. reflexivity. } { lia. } { cbn [negb]. zl. }
    + eapply throws_pre with (Y := []); [apply reach_refl | exact IHa | zl | zl].
  - (* || *)
    catd. useE IHa K s x t H. destruct (leval (hold (map inh t)) a x) as [[va x'] | x']; cbn [lbind].
    + destruct (truthy VS (deref x' va)) eqn:ET.
      * eapply reach_eq. eapply reach_weak; [eapply reach_trans; [exact IHa | ] | ].
        { dostep H0. rewrite ET. reflexivity. } { lia. } { zl. }
      * assert (R : reach P 2 (mkcfg (p + zlen (comp_e a)) (va :: s) x' t) (mkcfg (p + zlen (comp_e a) + 1 + 1) s x' t)).
        { apply (reach_trans P 1 1 _ (mkcfg (p + zlen (comp_e a) + 1) (SVal (deref x' va) :: s) x' t)).
          - dostep H0. rewrite ET. reflexivity.
          - dostep H1. reflexivity. }
        useE IHb K s x' t H2. destruct (leval (hold (map inh t)) b x') as [[vb x2] | x2].
        { eapply reach_eq. eapply reach_weak; [eapply reach_trans; [exact IHa | eapply reach_trans; [exact R | exact IHb]] | lia]. zl. }
        { eapply throws_pre with (Y := []); [eapply reach_trans; [exact IHa | exact R] | exact IHb | zl | zl]. }
    + eapply throws_pre with (Y := []); [apply reach_refl | exact IHa | zl | zl].
  - (* ?: *)
    catd. useE IHc K s x t H. destruct (leval (hold (map inh t)) c x) as [[vc x'] | x']; cbn [lbind].
    + destruct (truthy VS (deref x' vc)) eqn:ET.
      * assert (R : reach P 1 (mkcfg (p + zlen (comp_e c)) (vc :: s) x' t) (mkcfg (p + zlen (comp_e c) + 1) s x' t)).
        { dostep H0. rewrite ET. reflexivity. }
        useE IHa K s x' t H1. destruct (leval (hold (map inh t)) a x') as [[va x2] | x2].
        { eapply reach_eq. eapply reach_weak; [eapply reach_trans; [exact IHc | eapply reach_trans; [exact R | eapply reach_trans; [exact IHa | ]]] | ].
          - dostep H2. erewrite do_jump_in; [reflexivity | exact HE | zl].
          - lia.
          - zl. }
        { eapply throws_pre with (Y := []); [eapply reach_trans; [exact IHc | exact R] | exact IHa | zl | zl]. }
      * assert (R : reach P 1 (mkcfg (p + zlen (comp_e c)) (vc :: s) x' t) (mkcfg (p + zlen (comp_e c) + 1 + zlen (comp_e a) + 1) s x' t)).
        { eapply reach_eq. dostep H0. rewrite ET. reflexivity. cbn [negb]. zl. }
        useE IHb K s x' t H3. destruct (leval (hold (map inh t)) b x') as [[va x2] | x2].
        { eapply reach_eq. eapply reach_weak; [eapply reach_trans; [exact IHc | eapply reach_trans; [exact R | exact IHb]] | lia]. zl. }
        { eapply throws_pre with (Y := []); [eapply reach_trans; [exact IHc | exact R] | exact IHb | zl | zl]. }
    + eapply throws_pre with (Y := []); [apply reach_refl | exact IHc | zl | zl].
  - catd. useE IHa K s x t H. destruct (leval (hold (map inh t)) a x) as [[va x'] | x']; cbn [lbind].
    + assert (R : reach P 1 (mkcfg (p + zlen (comp_e a)) (va :: s) x' t) (mkcfg (p + zlen (comp_e a) + 1) s x' t)).
      { dostep H0. reflexivity. }
      useE IHb K s x' t H1. destruct (leval (hold (map inh t)) b x') as [[vb x2] | x2].
      * eapply reach_eq. eapply reach_weak; [eapply reach_trans; [exact IHa | eapply reach_trans; [exact R | exact IHb]] | lia]. zl.
      * eapply throws_pre with (Y := []); [eapply reach_trans; [exact IHa | exact R] | exact IHb | zl | zl].
    + eapply throws_pre with (Y := []); [apply reach_refl | exact IHa | zl | zl].
  - catd. useE IHe K s x t H. destruct (leval (hold (map inh t)) e x) as [[va x'] | x']; cbn [lbind].
    + eapply reach_eq. eapply reach_weak; [eapply reach_trans; [exact IHe | ] | ].
      * apply (reach_trans P 1 1 _ (mkcfg (p + zlen (comp_e e) + 1) s x' t)); [dostep H0; reflexivity | dostep H1; reflexivity].
      * lia.
      * zl.
    + eapply throws_pre with (Y := []); [apply reach_refl | exact IHe | zl | zl].
Qed.
End Sim.
