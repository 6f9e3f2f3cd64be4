(** Writing out bounded repetitions: positions stay apart, the meaning stays the same. *)
From Coq Require Import ZArith List Bool Lia.
From Verif Require Import NfaModel NfaSpec NfaProofs.
Import ListNotations.
Open Scope Z_scope.

(** ** Copies *)

Lemma copy_poss a k : poss (copy a k) = map (fun x => x + k) (poss a).
Proof. induction a as [| |l|x IHx y IHy|x IHx y IHy|mn mx x IHx]; cbn; auto; rewrite map_app; congruence. Qed.

Lemma copy_lits a k : lits (copy a k) = lits a.
Proof. induction a; cbn; auto; lia. Qed.

Lemma copy_null a k : null (copy a k) = null a.
Proof. induction a; cbn; auto; congruence. Qed.

Lemma copy_emp a k : emp (copy a k) = emp a.
Proof. induction a; cbn; rewrite ?copy_null; auto; try congruence.
  - destruct (null a1); auto.
  - destruct (null a); auto.
Qed.

Lemma copy_bracket p a k : bracket p a -> bracket (p + k) (copy a k).
Proof. induction a; cbn; try tauto. intros <-. reflexivity. Qed.

Lemma copy_apart a k : apart a -> apart (copy a k).
Proof.
  assert (D : forall x y, disjoint (poss x) (poss y) -> disjoint (poss (copy x k)) (poss (copy y k))).
  { intros x y H q I J. rewrite copy_poss in I, J. apply in_map_iff in I. apply in_map_iff in J.
    destruct I as (u & U & I), J as (v & V & J). assert (u = v) by lia. subst v. apply (H u); auto. }
  induction a as [| |l|x IHx y IHy|x IHx y IHy|mn mx x IHx]; cbn [apart copy]; auto.
  - intros (H1 & H2 & H3). auto.
  - intros [[p B]|(H1 & H2 & H3)]; [left|right; auto]. exists (p + k). apply (copy_bracket p (Alt x y) k B).
Qed.

Lemma copy_masks a k : masks a -> masks (copy a k).
Proof. induction a; cbn; tauto. Qed.

Lemma copy_simple a k : simple a -> simple (copy a k).
Proof. induction a; cbn; tauto. Qed.

Lemma copy_plain a k : plain a -> plain (copy a k).
Proof. induction a; cbn; rewrite ?copy_null, ?copy_emp; tauto. Qed.

(** No assertions. *)
Fixpoint noas (r : ast) : Prop :=
  match r with
  | Empty | Lit _ => True
  | Assert _ => False
  | Cat x y | Alt x y => noas x /\ noas y
  | Iter _ _ x => noas x
  end.

Lemma noas_emp r : noas r -> emp r = 0.
Proof.
  induction r as [| |l|x IHx y IHy|x IHx y IHy|mn mx x IHx]; cbn; intros N; try tauto.
  - destruct N. rewrite IHx, IHy by auto. reflexivity.
  - destruct N. destruct (null x); auto.
  - destruct (null x); auto.
Qed.

Lemma copy_noas a k : noas a -> noas (copy a k).
Proof. induction a; cbn; tauto. Qed.

(** No character classes. *)
Fixpoint nocls (r : ast) : Prop :=
  match r with
  | Empty | Assert _ => True
  | Lit l => l_cls l = 0 /\ l_neg l = []
  | Cat x y | Alt x y => nocls x /\ nocls y
  | Iter _ _ x => nocls x
  end.

Lemma copy_nocls a k : nocls (copy a k).
Proof. induction a; cbn; tauto. Qed.

Lemma times_ext (R S : nat -> nat -> Prop) n : (forall i j, R i j <-> S i j) -> forall i j, times R n i j <-> times S n i j.
Proof.
  intros H. induction n as [|n IH]; cbn; intros i j; [tauto|].
  split; intros (k & H1 & H2); exists k; (split; [apply H; exact H1|apply IH; exact H2]).
Qed.

Lemma copy_den E txt a k : nocls a -> forall i j, den E txt (copy a k) i j <-> den E txt a i j.
Proof.
  induction a as [| |l|x IHx y IHy|x IHx y IHy|mn mx x IHx]; cbn [nocls copy den]; intros N i j; try tauto.
  - cbn. destruct N as [-> ->]. tauto.
  - destruct N. split; intros (m & H1 & H2); exists m; (split; [apply IHx; auto|apply IHy; auto]).
  - destruct N. rewrite IHx, IHy by auto. tauto.
  - split; intros (n & H1 & H2); exists n; (split; [|exact H2]);
      (eapply times_ext; [|exact H1]); intros u v; [symmetry|]; apply IHx; exact N.
Qed.

Lemma copy_nonneg a k : nonneg a -> 0 <= k -> nonneg (copy a k).
Proof. intros N K. induction a; cbn in *; try tauto; lia. Qed.

(** ** Rows of copies *)

Definition within (lo hi : Z) (r : ast) : Prop := forall x, In x (poss r) -> lo <= x < hi.

Definition opt_good (L H : Z) (s : option ast) : Prop :=
  match s with None => True | Some r => apart r /\ within L H r end.

Definition opt_lits (s : option ast) : Z := match s with None => 0 | Some r => lits r end.

Section Rows.
Context (a : ast) (lo hi : Z) (A : apart a) (W : within lo hi a) (N : hi - lo <= lits a).

Lemma copy_within k : within (lo + k) (hi + k) (copy a k).
Proof.
  intros x I. rewrite copy_poss in I. apply in_map_iff in I. destruct I as (u & <- & I). apply W in I. lia.
Qed.

Lemma row_good n : forall add seq L,
  opt_good L (hi + add - lits a) seq -> L <= lo + add ->
  let '(s, add') := row a n add seq in
  opt_good L (hi + add' - lits a) s /\ add' = add + Z.of_nat n * lits a
  /\ opt_lits s = opt_lits seq + Z.of_nat n * lits a.
Proof.
  induction n as [|n IH]; intros add seq L G Ll; [cbn; split; [exact G|lia]|].
  cbn [row]. set (seq' := Some _).
  assert (Lt : 0 <= lits a).
  { clear. induction a; cbn; lia. }
  assert (G' : opt_good L (hi + (add + lits a) - lits a) seq').
  { unfold seq'. cbn [opt_good]. replace (hi + (add + lits a) - lits a) with (hi + add) by lia.
    pose proof (copy_within add) as Wc. destruct seq as [s|]; cbn [opt_good] in G.
    - destruct G as [G1 G2]. split.
      + cbn [apart]. split; [exact G1|]. split; [apply copy_apart; exact A|].
        intros x I J. apply G2 in I. apply Wc in J. lia.
      + intros x I. cbn [poss] in I. apply in_app_iff in I. destruct I as [I|I]; [apply G2 in I; lia|apply Wc in I; lia].
    - split; [apply copy_apart; exact A|]. intros x I. apply Wc in I. lia. }
  specialize (IH (add + lits a) seq' L G' ltac:(lia)).
  destruct (row a n (add + lits a) seq') as [s add']. destruct IH as (I1 & I2 & I3).
  split; [exact I1|]. split; [lia|]. rewrite I3. unfold seq'. cbn [opt_lits].
  destruct seq; cbn [opt_lits lits]; rewrite copy_lits; lia.
Qed.

Lemma nest_good n : forall add seq L,
  opt_good L (hi + add - lits a) seq -> L <= lo + add ->
  let '(s, add') := nest a n add seq in
  opt_good L (hi + add' - lits a) s /\ add' = add + Z.of_nat n * lits a
  /\ opt_lits s = opt_lits seq + Z.of_nat n * lits a.
Proof.
  induction n as [|n IH]; intros add seq L G Ll; [cbn; split; [exact G|lia]|].
  cbn [nest]. set (seq' := Some _).
  assert (Lt : 0 <= lits a).
  { clear. induction a; cbn; lia. }
  assert (G' : opt_good L (hi + (add + lits a) - lits a) seq').
  { unfold seq'. cbn [opt_good]. replace (hi + (add + lits a) - lits a) with (hi + add) by lia.
    pose proof (copy_within add) as Wc. destruct seq as [s|]; cbn [opt_good] in G.
    - destruct G as [G1 G2]. split.
      + cbn [apart]. right. split; [exact Logic.I|]. split; [|intros x []].
        split; [apply copy_apart; exact A|]. split; [exact G1|].
        intros x I J. apply G2 in J. apply Wc in I. lia.
      + intros x I. cbn [poss app] in I. apply in_app_iff in I. destruct I as [I|I]; [apply Wc in I; lia|apply G2 in I; lia].
    - split.
      + cbn [apart]. right. split; [exact Logic.I|]. split; [apply copy_apart; exact A|intros x []].
      + intros x I. cbn [poss app] in I. apply Wc in I. lia. }
  specialize (IH (add + lits a) seq' L G' ltac:(lia)).
  destruct (nest a n (add + lits a) seq') as [s add']. destruct IH as (I1 & I2 & I3).
  split; [exact I1|]. split; [lia|]. rewrite I3. unfold seq'. cbn [opt_lits].
  destruct seq; cbn [opt_lits lits]; rewrite copy_lits; lia.
Qed.

Definition howmany (mn mx : Z) : Z := if mx =? -1 then mn + 1 else mx.

Lemma unroll_good mn mx add :
  count_ok mn mx -> expanded mn mx = true ->
  let '(r, add') := unroll a mn mx add in
  apart r /\ within (lo + add) (hi + add') r /\ add' = add + (howmany mn mx - 1) * lits a
  /\ lits r = howmany mn mx * lits a /\ 2 <= howmany mn mx.
Proof.
  intros [C1 C2] X. unfold unroll.
  assert (Lt : 0 <= lits a) by (clear; induction a; cbn; lia).
  assert (H2 : 2 <= howmany mn mx).
  { unfold expanded in X. unfold howmany. apply orb_true_iff in X. rewrite !Z.ltb_lt in X.
    destruct (Z.eqb_spec mx (-1)); lia. }
  pose proof (row_good (Z.to_nat mn) add None (lo + add) Logic.I ltac:(lia)) as R.
  destruct (row a (Z.to_nat mn) add None) as [s1 add1]. destruct R as (G1 & E1 & L1). cbn [opt_lits] in L1.
  rewrite Z2Nat.id in E1, L1 by lia.
  assert (S2 : exists s2 add2, (if mx =? -1 then (Some (Iter 0 (-1) (copy a add1)), add1 + lits a)
                                else nest a (Z.to_nat (mx - mn)) add1 None) = (s2, add2)
               /\ opt_good (lo + add1) (hi + add2 - lits a) s2 /\ add2 = add + howmany mn mx * lits a
               /\ opt_lits s2 = (howmany mn mx - mn) * lits a).
  { unfold howmany. destruct (Z.eqb_spec mx (-1)) as [->|Nm].
    - eexists _, _. split; [reflexivity|]. cbn [opt_good opt_lits lits apart]. rewrite copy_lits.
      split; [|split; [lia|lia]]. split; [apply copy_apart; exact A|].
      intros x I. cbn [poss] in I. apply copy_within in I. lia.
    - pose proof (nest_good (Z.to_nat (mx - mn)) add1 None (lo + add1) Logic.I ltac:(lia)) as R.
      destruct (nest a (Z.to_nat (mx - mn)) add1 None) as [s2 add2]. destruct R as (G2 & E2 & L2). cbn [opt_lits] in L2.
      rewrite Z2Nat.id in E2, L2 by lia.
      exists s2, add2. split; [reflexivity|]. split; [exact G2|]. split; lia. }
  destruct S2 as (s2 & add2 & -> & G2 & E2 & L2).
  assert (Q : add2 - lits a = add + (howmany mn mx - 1) * lits a) by lia.
  assert (Q1 : 0 <= mn * lits a) by (apply Z.mul_nonneg_nonneg; lia).
  assert (Hm : mn <= howmany mn mx) by (unfold howmany; destruct (Z.eqb_spec mx (-1)); lia).
  assert (Q2 : mn * lits a <= howmany mn mx * lits a) by (apply Z.mul_le_mono_nonneg_r; lia).
  destruct s1 as [r1|], s2 as [r2|]; cbn [opt_good opt_lits] in *.
  - destruct G1 as [G11 G12], G2 as [G21 G22]. split; [|split; [|split; [exact Q|split; [cbn [lits]; lia|exact H2]]]].
    + cbn [apart]. split; [exact G11|]. split; [exact G21|]. intros x I J. apply G12 in I. apply G22 in J. lia.
    + intros x I. cbn [poss] in I. apply in_app_iff in I. destruct I as [I|I]; [apply G12 in I|apply G22 in I]; lia.
  - destruct G1 as [G11 G12]. split; [exact G11|]. split; [intros x I; apply G12 in I; lia|].
    split; [exact Q|]. split; [lia|exact H2].
  - destruct G2 as [G21 G22]. split; [exact G21|]. split; [intros x I; apply G22 in I; lia|].
    split; [exact Q|]. split; [lia|exact H2].
  - cbn [apart lits]. split; [exact Logic.I|]. split; [intros x []|]. split; [exact Q|]. split; [lia|exact H2].
Qed.
End Rows.

(** ** Where the parser puts the positions *)

Fixpoint tidy (r : ast) (p q : Z) : Prop :=
  match r with
  | Empty | Assert _ => p = q
  | Lit l => l_pos l = p /\ q = p + 1
  | Cat x y => exists m, tidy x p m /\ tidy y m q
  | Alt x y => (bracket p (Alt x y) /\ q = p + 1) \/ exists m, tidy x p m /\ tidy y m q
  | Iter mn mx x => count_ok mn mx /\ tidy x p q
  end.

Fixpoint nobound (r : ast) : Prop :=
  match r with
  | Empty | Assert _ | Lit _ => True
  | Cat x y | Alt x y => nobound x /\ nobound y
  | Iter mn mx x => expanded mn mx = false /\ nobound x
  end.

Fixpoint onedeep (r : ast) : Prop :=
  match r with
  | Empty | Assert _ | Lit _ => True
  | Cat x y | Alt x y => onedeep x /\ onedeep y
  | Iter _ _ x => nobound x
  end.

Fixpoint shallowa (r : ast) : Prop :=
  match r with
  | Empty | Assert _ | Lit _ => True
  | Cat x y | Alt x y => shallowa x /\ shallowa y
  | Iter _ _ x => onedeep x
  end.

Lemma lits_nonneg r : 0 <= lits r.
Proof. induction r; cbn; lia. Qed.

Lemma bracket_lits p r : bracket p r -> 1 <= lits r.
Proof. induction r; cbn; intros B; try contradiction; [lia|]. destruct B. pose proof (lits_nonneg r2). specialize (IHr1 H). lia. Qed.

Lemma tidy_le r p q : tidy r p q -> p <= q.
Proof.
  revert p q. induction r as [| |l|x IHx y IHy|x IHx y IHy|mn mx x IHx]; cbn [tidy]; intros p q T; try lia.
  - destruct T as (m & T1 & T2). apply IHx in T1. apply IHy in T2. lia.
  - destruct T as [[_ T]|(m & T1 & T2)]; [lia|]. apply IHx in T1. apply IHy in T2. lia.
  - destruct T. auto.
Qed.

Lemma expand_bracket p r st : bracket p r -> let '(r', st') := expand r st in bracket (p + pos_add st) r' /\ st' = st /\ 1 <= lits r'.
Proof.
  revert st. induction r as [| |l|x IHx y IHy|x IHx y IHy|mn mx x IHx]; cbn [bracket expand]; intros st B; try contradiction.
  - cbn. split; [lia|]. split; [reflexivity|lia].
  - destruct B as [B1 B2]. specialize (IHx st B1). destruct (expand x st) as [x' s1]. destruct IHx as (H1 & -> & H3).
    specialize (IHy st B2). destruct (expand y st) as [y' s2]. destruct IHy as (H4 & -> & H6). cbn. split; [auto|]. split; [auto|lia].
Qed.

Lemma bracket_poss p r x : bracket p r -> In x (poss r) -> x = p.
Proof.
  induction r; cbn; intros B I; try contradiction; [destruct I; [lia|contradiction]|].
  rewrite in_app_iff in I. destruct B, I; auto.
Qed.

(** What an expansion does to a part of the tree. *)
Definition fine (p q : Z) (st : xst) (r' : ast) (st' : xst) : Prop :=
  apart r' /\ within (p + pos_add st) (q + pos_add st') r'
  /\ pos_add st <= pos_add st' /\ depth st' = depth st
  /\ (q - p) + (pos_add st' - pos_add st) <= lits r'.

Lemma fine_cat p m q st x' s1 y' s2 :
  fine p m st x' s1 -> fine m q s1 y' s2 -> p <= m <= q ->
  (apart (Cat x' y') /\ apart (Alt x' y')) /\ within (p + pos_add st) (q + pos_add s2) (Cat x' y')
  /\ pos_add st <= pos_add s2 /\ depth s2 = depth st
  /\ (q - p) + (pos_add s2 - pos_add st) <= lits (Cat x' y').
Proof.
  intros (A1 & W1 & L1 & D1 & N1) (A2 & W2 & L2 & D2 & N2) L.
  assert (D : disjoint (poss x') (poss y')).
  { intros u I J. apply W1 in I. apply W2 in J. lia. }
  split; [cbn [apart]; tauto|]. split.
  - intros u I. cbn in I. apply in_app_iff in I. destruct I as [I|I]; [apply W1 in I|apply W2 in I]; lia.
  - split; [lia|]. split; [congruence|]. cbn [lits]. lia.
Qed.

(** No bounded repetition inside: everything moves by pos_add. *)
Lemma expand_nobound r : nobound r -> forall p q st, tidy r p q -> 1 <= depth st ->
  let '(r', st') := expand r st in fine p q st r' st' /\ st' = st.
Proof.
  induction r as [| |l|x IHx y IHy|x IHx y IHy|mn mx x IHx]; intros B p q st T Dp; cbn [expand].
  - cbn in T. subst q. split; [|reflexivity]. split; [exact Logic.I|]. split; [intros u []|]. cbn. lia.
  - cbn in T. subst q. split; [|reflexivity]. split; [exact Logic.I|]. split; [intros u []|]. cbn. lia.
  - cbn in T. split; [|reflexivity]. split; [exact Logic.I|]. split; [|cbn; lia].
    intros u I. cbn in I. destruct I as [<-|[]]. lia.
  - cbn in T. destruct T as (m & T1 & T2), B as [B1 B2]. specialize (IHx B1 p m st T1 Dp).
    destruct (expand x st) as [x' s1]. destruct IHx as [F1 ->]. specialize (IHy B2 m q st T2 Dp).
    destruct (expand y st) as [y' s2]. destruct IHy as [F2 ->]. split; [|reflexivity].
    destruct (fine_cat _ _ _ _ _ _ _ _ F1 F2) as ([A _] & R); [apply tidy_le in T1; apply tidy_le in T2; lia|].
    split; [exact A|exact R].
  - cbn [tidy] in T. destruct T as [[Br ->]|(m & T1 & T2)].
    + pose proof (expand_bracket p (Alt x y) st Br) as H. cbn [expand] in H.
      destruct (expand x st) as [x' s1]. destruct (expand y s1) as [y' s2]. destruct H as (H1 & -> & H3).
      split; [|reflexivity]. split; [left; eexists; exact H1|]. split; [|lia].
      intros u I. apply (bracket_poss _ _ _ H1) in I. lia.
    + destruct B as [B1 B2]. specialize (IHx B1 p m st T1 Dp).
      destruct (expand x st) as [x' s1]. destruct IHx as [F1 ->]. specialize (IHy B2 m q st T2 Dp).
      destruct (expand y st) as [y' s2]. destruct IHy as [F2 ->]. split; [|reflexivity].
      destruct (fine_cat _ _ _ _ _ _ _ _ F1 F2) as ([_ A] & R); [apply tidy_le in T1; apply tidy_le in T2; lia|].
      split; [exact A|exact R].
  - destruct B as [X B]. destruct T as [C T]. rewrite X.
    specialize (IHx B p q {| pos_add := pos_add st; total := total st; depth := depth st + 1 |} T ltac:(cbn; lia)).
    destruct (expand x _) as [x' s1]. destruct IHx as [F ->]. destruct F as (A & W & L & D & N). cbn in *.
    destruct (Z.eqb_spec (depth st + 1 - 1) 0); [lia|].
    split.
    + split; [exact A|]. split; [exact W|]. cbn. lia.
    + destruct st. cbn. f_equal; lia.
Qed.

(** Inside one repetition, itself free of bounded repetitions within repetitions. *)
Lemma expand_onedeep r : onedeep r -> forall p q st, tidy r p q -> 1 <= depth st ->
  let '(r', st') := expand r st in
  fine p q st r' st' /\ total st' - total st = pos_add st' - pos_add st.
Proof.
  induction r as [| |l|x IHx y IHy|x IHx y IHy|mn mx x IHx]; intros B p q st T Dp; cbn [expand].
  - cbn in T. subst q. split; [|lia]. split; [exact Logic.I|]. split; [intros u []|]. cbn. lia.
  - cbn in T. subst q. split; [|lia]. split; [exact Logic.I|]. split; [intros u []|]. cbn. lia.
  - cbn in T. split; [|lia]. split; [exact Logic.I|]. split; [|cbn; lia].
    intros u I. cbn in I. destruct I as [<-|[]]. lia.
  - cbn in T. destruct T as (m & T1 & T2), B as [B1 B2]. specialize (IHx B1 p m st T1 Dp).
    destruct (expand x st) as [x' s1]. destruct IHx as [F1 E1].
    assert (Dp1 : 1 <= depth s1) by (destruct F1 as (_ & _ & _ & -> & _); exact Dp).
    specialize (IHy B2 m q s1 T2 Dp1).
    destruct (expand y s1) as [y' s2]. destruct IHy as [F2 E2]. split; [|lia].
    destruct (fine_cat _ _ _ _ _ _ _ _ F1 F2) as ([A _] & R); [apply tidy_le in T1; apply tidy_le in T2; lia|].
    split; [exact A|exact R].
  - cbn [tidy] in T. destruct T as [[Br ->]|(m & T1 & T2)].
    + pose proof (expand_bracket p (Alt x y) st Br) as H. cbn [expand] in H.
      destruct (expand x st) as [x' s1]. destruct (expand y s1) as [y' s2]. destruct H as (H1 & -> & H3).
      split; [|lia]. split; [left; eexists; exact H1|]. split; [|lia].
      intros u I. apply (bracket_poss _ _ _ H1) in I. lia.
    + destruct B as [B1 B2]. specialize (IHx B1 p m st T1 Dp).
      destruct (expand x st) as [x' s1]. destruct IHx as [F1 E1].
      assert (Dp1 : 1 <= depth s1) by (destruct F1 as (_ & _ & _ & -> & _); exact Dp).
      specialize (IHy B2 m q s1 T2 Dp1).
      destruct (expand y s1) as [y' s2]. destruct IHy as [F2 E2]. split; [|lia].
      destruct (fine_cat _ _ _ _ _ _ _ _ F1 F2) as ([_ A] & R); [apply tidy_le in T1; apply tidy_le in T2; lia|].
      split; [exact A|exact R].
  - destruct T as [C T]. cbn [onedeep] in B.
    pose proof (expand_nobound x B p q {| pos_add := if expanded mn mx then 0 else pos_add st; total := total st; depth := depth st + 1 |} T ltac:(cbn; lia)) as H.
    destruct (expand x _) as [x' s1]. destruct H as [F ->]. destruct F as (A & W & L & D & N). cbn [pos_add total depth] in *.
    destruct (expanded mn mx) eqn:X.
    + rewrite Z.add_0_r in W. rewrite Z.add_0_r in W.
      pose proof (unroll_good x' p q A W ltac:(lia) mn mx (pos_add st) C X) as U.
      destruct (unroll x' mn mx (pos_add st)) as [r' add]. destruct U as (U1 & U2 & U3 & U4 & U5).
      destruct (Z.eqb_spec (depth st + 1 - 1) 0); [lia|]. cbn [pos_add total depth].
      assert (Q : lits x' <= (howmany mn mx - 1) * lits x').
      { pose proof (lits_nonneg x'). replace (lits x') with (1 * lits x') at 1 by lia.
        apply Z.mul_le_mono_nonneg_r; lia. }
      pose proof (lits_nonneg x').
      split; [|lia]. split; [exact U1|]. split; [exact U2|]. cbn [pos_add depth]. split; [lia|]. split; [lia|]. lia.
    + destruct (Z.eqb_spec (depth st + 1 - 1) 0); [lia|]. cbn [pos_add total depth].
      split; [|lia]. split; [exact A|]. split; [exact W|]. cbn. lia.
Qed.

(** The whole pattern. *)
Definition fine0 (p q : Z) (st : xst) (r' : ast) (st' : xst) : Prop :=
  apart r' /\ within (p + pos_add st) (q + pos_add st') r'
  /\ pos_add st <= pos_add st' /\ depth st' = 0 /\ pos_add st' = total st'.

Lemma expand_shallow r : shallowa r -> forall p q st, tidy r p q -> depth st = 0 -> pos_add st = total st ->
  let '(r', st') := expand r st in fine0 p q st r' st'.
Proof.
  induction r as [| |l|x IHx y IHy|x IHx y IHy|mn mx x IHx]; intros B p q st T Dp Tp; cbn [expand].
  - cbn in T. subst q. split; [exact Logic.I|]. split; [intros u []|]. cbn. lia.
  - cbn in T. subst q. split; [exact Logic.I|]. split; [intros u []|]. cbn. lia.
  - cbn in T. split; [exact Logic.I|]. split; [|cbn; lia].
    intros u I. cbn in I. destruct I as [<-|[]]. lia.
  - cbn in T. destruct T as (m & T1 & T2), B as [B1 B2]. specialize (IHx B1 p m st T1 Dp Tp).
    destruct (expand x st) as [x' s1]. destruct IHx as (A1 & W1 & L1 & D1 & E1).
    specialize (IHy B2 m q s1 T2 D1 E1).
    destruct (expand y s1) as [y' s2]. destruct IHy as (A2 & W2 & L2 & D2 & E2).
    apply tidy_le in T1. apply tidy_le in T2.
    split; [|split; [|lia]].
    + cbn [apart]. split; [exact A1|]. split; [exact A2|]. intros u I J. apply W1 in I. apply W2 in J. lia.
    + intros u I. cbn in I. apply in_app_iff in I. destruct I as [I|I]; [apply W1 in I|apply W2 in I]; lia.
  - cbn [tidy] in T. destruct T as [[Br ->]|(m & T1 & T2)].
    + pose proof (expand_bracket p (Alt x y) st Br) as H. cbn [expand] in H.
      destruct (expand x st) as [x' s1]. destruct (expand y s1) as [y' s2]. destruct H as (H1 & -> & H3).
      split; [left; eexists; exact H1|]. split; [|lia].
      intros u I. apply (bracket_poss _ _ _ H1) in I. lia.
    + destruct B as [B1 B2]. specialize (IHx B1 p m st T1 Dp Tp).
      destruct (expand x st) as [x' s1]. destruct IHx as (A1 & W1 & L1 & D1 & E1).
      specialize (IHy B2 m q s1 T2 D1 E1).
      destruct (expand y s1) as [y' s2]. destruct IHy as (A2 & W2 & L2 & D2 & E2).
      apply tidy_le in T1. apply tidy_le in T2.
      split; [|split; [|lia]].
      * cbn [apart]. right. split; [exact A1|]. split; [exact A2|]. intros u I J. apply W1 in I. apply W2 in J. lia.
      * intros u I. cbn in I. apply in_app_iff in I. destruct I as [I|I]; [apply W1 in I|apply W2 in I]; lia.
  - destruct T as [C T]. cbn [shallowa] in B.
    pose proof (expand_onedeep x B p q {| pos_add := if expanded mn mx then 0 else pos_add st; total := total st; depth := depth st + 1 |} T ltac:(cbn; lia)) as H.
    destruct (expand x _) as [x' s1]. destruct H as [F E1]. destruct F as (A & W & L & D & N). cbn [pos_add total depth] in *.
    rewrite Dp in D. replace (depth s1 - 1) with 0 by lia. rewrite Z.eqb_refl.
    destruct (expanded mn mx) eqn:X.
    + rewrite Z.add_0_r in W.
      pose proof (unroll_good x' p (q + pos_add s1) A W ltac:(lia) mn mx (pos_add st) C X) as U.
      destruct (unroll x' mn mx (pos_add st)) as [r' add]. destruct U as (U1 & U2 & U3 & U4 & U5).
      pose proof (lits_nonneg x').
      assert (Q : 0 <= (howmany mn mx - 1) * lits x') by (apply Z.mul_nonneg_nonneg; lia).
      split; [exact U1|]. cbn [pos_add total depth]. split; [|lia].
      intros u I. apply U2 in I. lia.
    + split; [exact A|]. cbn [pos_add total depth]. split; [|lia].
      intros u I. apply W in I. lia.
Qed.
