(** Writing out repetitions keeps the meaning; what the parser builds means what the pattern means. *)
From Coq Require Import ZArith List Bool Lia.
From Verif Require Import NfaModel NfaSpec NfaProofs NfaProofs2.
Import ListNotations.
Open Scope Z_scope.

(** ** Meaning of rows *)

Lemma times_app (R : nat -> nat -> Prop) a b : forall i j,
  times R (a + b) i j <-> exists k, times R a i k /\ times R b k j.
Proof.
  induction a as [|a IH]; cbn; intros i j.
  - split; [intros H; exists i; auto|intros (k & -> & H); exact H].
  - split.
    + intros (m & H1 & H2). apply IH in H2. destruct H2 as (k & H2 & H3). exists k. split; [exists m; auto|auto].
    + intros (k & (m & H1 & H2) & H3). exists m. split; [auto|]. apply IH. exists k. auto.
Qed.

Section Den.
Context (E : env) (txt : list Z).

Notation D := (den E txt).

Definition oden (s : option ast) (i j : nat) : Prop :=
  match s with None => i = j | Some r => D r i j end.

Lemma row_den a n : nocls a -> forall add seq i j,
  oden (fst (row a n add seq)) i j <-> exists k, oden seq i k /\ times (D a) n k j.
Proof.
  intros N. induction n as [|n IH]; intros add seq i j.
  - cbn. split; [intros H; exists j; auto|intros (k & H & ->); exact H].
  - cbn [row]. rewrite IH. cbn [times]. split.
    + intros (k & H1 & H2). destruct seq as [s|]; cbn in H1.
      * destruct H1 as (m & H1 & H3). apply copy_den in H3; [|exact N]. exists m. split; [exact H1|]. exists k. auto.
      * apply copy_den in H1; [|exact N]. exists i. split; [reflexivity|]. exists k. auto.
    + intros (k & H1 & m & H2 & H3). exists m. split; [|exact H3]. destruct seq as [s|]; cbn in *.
      * exists k. split; [exact H1|]. apply copy_den; auto.
      * subst k. apply copy_den; auto.
Qed.

Lemma nest_den a n : nocls a -> forall add seq c,
  (forall i j, oden seq i j <-> exists m, (m <= c)%nat /\ times (D a) m i j) ->
  forall i j, oden (fst (nest a n add seq)) i j <-> exists m, (m <= n + c)%nat /\ times (D a) m i j.
Proof.
  intros N. induction n as [|n IH]; intros add seq c Hc i j; [apply Hc|].
  cbn [nest]. rewrite (IH _ _ (S c)).
  - replace (n + S c)%nat with (S n + c)%nat by lia. reflexivity.
  - clear i j. intros i j. cbn [oden den]. split.
    + intros [->|H]; [exists O; split; [lia|reflexivity]|]. destruct seq as [s|]; cbn in Hc.
      * destruct H as (k & H1 & H2). apply copy_den in H1; [|exact N]. apply Hc in H2. destruct H2 as (m & L & H2).
        exists (S m). split; [lia|]. exists k. auto.
      * apply copy_den in H; [|exact N]. exists 1%nat. split; [lia|]. exists j. split; [exact H|reflexivity].
    + intros (m & L & H). destruct m as [|m]; [left; exact H|right]. destruct H as (k & H1 & H2).
      destruct seq as [s|]; cbn in Hc.
      * exists k. split; [apply copy_den; auto|]. apply Hc. exists m. split; [lia|exact H2].
      * assert (X : k = j) by (apply Hc; exists m; split; [lia|exact H2]). subst k. apply copy_den; auto.
Qed.

Lemma unroll_den a mn mx add :
  nocls a -> count_ok mn mx -> expanded mn mx = true ->
  forall i j, D (fst (unroll a mn mx add)) i j <-> D (Iter mn mx a) i j.
Proof.
  intros N [C1 C2] X i j. unfold unroll.
  pose proof (row_den a (Z.to_nat mn) N add None) as R.
  destruct (row a (Z.to_nat mn) add None) as [s1 add1]. cbn [fst] in R.
  set (P := if mx =? -1 then _ else _).
  assert (S2 : forall u v, oden (fst P) u v <-> exists m, times (D a) m u v /\ (mx = -1 \/ Z.of_nat m <= mx - mn)).
  { intros u v. unfold P. destruct (Z.eqb_spec mx (-1)) as [->|Nm].
    - cbn [fst oden den]. split.
      + intros (n & H & _). exists n. split; [|auto].
        eapply times_ext; [|exact H]. intros; symmetry; apply copy_den; exact N.
      + intros (n & H & _). exists n. split; [|lia].
        eapply times_ext; [|exact H]. intros; apply copy_den; exact N.
    - rewrite (nest_den a _ N add1 None O).
      + split; intros (m & H1 & H2); exists m; (split; [|]); auto; lia.
      + intros w z. cbn. split; [intros ->; exists O; split; [lia|reflexivity]|].
        intros (m & L & H). assert (m = O) by lia. subst m. exact H. }
  destruct P as [s2 add2]. cbn [fst] in S2.
  assert (Q : D (match s1, s2 with None, Some s => s | Some s, None => s | Some x, Some y => Cat x y | None, None => Empty end) i j
              <-> exists k, oden s1 i k /\ oden s2 k j).
  { destruct s1 as [r1|], s2 as [r2|]; cbn.
    - tauto.
    - split; [intros H; exists j; auto|intros (k & H & ->); exact H].
    - split; [intros H; exists i; auto|intros (k & <- & H); exact H].
    - split; [intros <-; exists i; auto|intros (k & <- & H); exact H]. }
  cbn [fst]. rewrite Q. cbn [den]. split.
  - intros (k & H1 & H2). apply R in H1. apply S2 in H2. destruct H1 as (k1 & <- & H1). destruct H2 as (m & H2 & H3).
    exists (Z.to_nat mn + m)%nat. split; [apply times_app; exists k; auto|]. lia.
  - intros (n & H & H1 & H2). replace n with (Z.to_nat mn + (n - Z.to_nat mn))%nat in H by lia.
    apply times_app in H. destruct H as (k & H3 & H4). exists k. split.
    + apply R. exists i. split; [reflexivity|exact H3].
    + apply S2. exists (n - Z.to_nat mn)%nat. split; [exact H4|]. lia.
Qed.

(** No class inside a repetition that is written out. *)
Fixpoint clsok (r : ast) : Prop :=
  match r with
  | Empty | Assert _ | Lit _ => True
  | Cat x y | Alt x y => clsok x /\ clsok y
  | Iter mn mx x => clsok x /\ (expanded mn mx = true -> nocls x)
  end.

Fixpoint countsa (r : ast) : Prop :=
  match r with
  | Empty | Assert _ | Lit _ => True
  | Cat x y | Alt x y => countsa x /\ countsa y
  | Iter mn mx x => count_ok mn mx /\ countsa x
  end.

Lemma row_nocls a n : forall add seq,
  (match seq with Some s => nocls s | None => True end) ->
  match fst (row a n add seq) with Some s => nocls s | None => True end.
Proof.
  induction n as [|n IH]; intros add seq H; [exact H|]. cbn [row]. apply IH.
  destruct seq; cbn; [split; [exact H|]|]; apply copy_nocls.
Qed.

Lemma nest_nocls a n : forall add seq,
  (match seq with Some s => nocls s | None => True end) ->
  match fst (nest a n add seq) with Some s => nocls s | None => True end.
Proof.
  induction n as [|n IH]; intros add seq H; [exact H|]. cbn [nest]. apply IH.
  destruct seq; cbn; (split; [exact Logic.I|]); [split; [|exact H]|]; apply copy_nocls.
Qed.

(** A property of trees that copies have and that passes through the rows. *)
Section Through.
Context (P : ast -> Prop) (a : ast) (Pc : forall k, P (copy a k)) (Pe : P Empty)
        (Pcat : forall x y, P x -> P y -> P (Cat x y)) (Popt : forall y, P y -> P (Alt Empty y))
        (Pstar : forall k, P (Iter 0 (-1) (copy a k))).

Lemma unroll_through mn mx add : P (fst (unroll a mn mx add)).
Proof.
  unfold unroll.
  assert (R : forall n add seq, (match seq with Some s => P s | None => True end) ->
                match fst (row a n add seq) with Some s => P s | None => True end).
  { induction n as [|n IH]; intros add' seq H; [exact H|]. cbn [row]. apply IH. destruct seq; auto. }
  assert (Q : forall n add seq, (match seq with Some s => P s | None => True end) ->
                match fst (nest a n add seq) with Some s => P s | None => True end).
  { induction n as [|n IH]; intros add' seq H; [exact H|]. cbn [nest]. apply IH. destruct seq; auto. }
  specialize (R (Z.to_nat mn) add None Logic.I).
  destruct (row a (Z.to_nat mn) add None) as [s1 add1]. cbn [fst] in R.
  specialize (Q (Z.to_nat (mx - mn)) add1 None Logic.I).
  destruct (mx =? -1).
  - destruct s1; cbn [fst]; auto.
  - destruct (nest a (Z.to_nat (mx - mn)) add1 None) as [s2 add2]. cbn [fst] in *. destruct s1, s2; auto.
Qed.
End Through.

Lemma unroll_nocls a mn mx add : nocls (fst (unroll a mn mx add)).
Proof. apply unroll_through; cbn; auto using copy_nocls. Qed.

Lemma expand_nocls r st : nocls r -> nocls (fst (expand r st)).
Proof.
  revert st. induction r as [| |l|x IHx y IHy|x IHx y IHy|mn mx x IHx]; cbn [nocls expand]; intros st N.
  - exact Logic.I.
  - exact Logic.I.
  - exact N.
  - destruct N as [N1 N2]. specialize (IHx st N1). destruct (expand x st) as [x' s1].
    specialize (IHy s1 N2). destruct (expand y s1) as [y' s2]. cbn in *. auto.
  - destruct N as [N1 N2]. specialize (IHx st N1). destruct (expand x st) as [x' s1].
    specialize (IHy s1 N2). destruct (expand y s1) as [y' s2]. cbn in *. auto.
  - match goal with |- context[expand x ?s] => specialize (IHx s N); destruct (expand x s) as [x' s1] end.
    cbn [fst] in IHx. destruct (expanded mn mx).
    + pose proof (unroll_nocls x' mn mx (pos_add st)) as U. destruct (unroll x' mn mx (pos_add st)). exact U.
    + exact IHx.
Qed.

Lemma expand_den r st : clsok r -> countsa r -> forall i j, D (fst (expand r st)) i j <-> D r i j.
Proof.
  revert st. induction r as [| |l|x IHx y IHy|x IHx y IHy|mn mx x IHx]; cbn [clsok countsa expand]; intros st N C i j.
  - reflexivity.
  - reflexivity.
  - reflexivity.
  - destruct N as [N1 N2], C as [C1 C2]. specialize (IHx st N1 C1). destruct (expand x st) as [x' s1].
    specialize (IHy s1 N2 C2). destruct (expand y s1) as [y' s2]. cbn in *.
    split; intros (k & H1 & H2); exists k; (split; [apply IHx; exact H1|apply IHy; exact H2]).
  - destruct N as [N1 N2], C as [C1 C2]. specialize (IHx st N1 C1). destruct (expand x st) as [x' s1].
    specialize (IHy s1 N2 C2). destruct (expand y s1) as [y' s2]. cbn in *. rewrite IHx, IHy. reflexivity.
  - destruct N as [N1 N2], C as [C1 C2].
    match goal with |- context[expand x ?s] => specialize (IHx s N1 C2); pose proof (expand_nocls x s) as Nc; destruct (expand x s) as [x' s1] end.
    cbn [fst] in IHx, Nc. destruct (expanded mn mx) eqn:X.
    + pose proof (unroll_den x' mn mx (pos_add st) (Nc (N2 eq_refl)) C1 X i j) as U.
      destruct (unroll x' mn mx (pos_add st)) as [r' add]. cbn [fst] in *. rewrite U. cbn [den].
      split; intros (n & H & L); exists n; (split; [|exact L]); (eapply times_ext; [|exact H]); intros u v; [symmetry|]; apply IHx.
    + cbn [fst den]. split; intros (n & H & L); exists n; (split; [|exact L]); (eapply times_ext; [|exact H]); intros u v; [symmetry|]; apply IHx.
Qed.
End Den.

(** ** The shape that the automaton wants *)

Fixpoint plains (r : ast) : Prop :=
  match r with
  | Empty | Assert _ | Lit _ => True
  | Cat x y => plains x /\ plains y
  | Alt x y => plains x /\ plains y /\ (null x = true -> null y = true -> noas x)
  | Iter _ _ x => plains x /\ (null x = true -> noas x)
  end.

Lemma row_null a n : forall add seq,
  (match seq with Some s => null s = null a | None => True end) ->
  match fst (row a n add seq) with Some s => null s = null a | None => (n = O /\ seq = None) end.
Proof.
  induction n as [|n IH]; intros add seq H; [cbn; destruct seq; auto|]. cbn [row].
  match goal with |- context[row a n ?b (Some ?s)] => specialize (IH b (Some s)); destruct (fst (row a n b (Some s))) end.
  - apply IH. destruct seq as [s|]; cbn; [rewrite H|]; rewrite copy_null; [destruct (null a)|]; reflexivity.
  - assert (X : n = O /\ (Some (match seq with Some s => Cat s (copy a add) | None => copy a add end)) = None).
    { apply IH. destruct seq as [s|]; cbn; [rewrite H|]; rewrite copy_null; [destruct (null a)|]; reflexivity. }
    destruct X. discriminate.
Qed.

Lemma nest_null a n : forall add seq,
  (match seq with Some s => null s = true | None => True end) ->
  match fst (nest a n add seq) with Some s => null s = true | None => (n = O /\ seq = None) end.
Proof.
  induction n as [|n IH]; intros add seq H; [cbn; destruct seq; auto|]. cbn [nest].
  match goal with |- context[nest a n ?b (Some ?s)] => specialize (IH b (Some s)); destruct (fst (nest a n b (Some s))) end.
  - apply IH. reflexivity.
  - destruct IH as [_ X]; [reflexivity|discriminate].
Qed.

Lemma unroll_null a mn mx add :
  count_ok mn mx -> null (fst (unroll a mn mx add)) = (mn =? 0) || null a.
Proof.
  intros [C1 C2]. unfold unroll. pose proof (row_null a (Z.to_nat mn) add None Logic.I) as R.
  destruct (row a (Z.to_nat mn) add None) as [s1 add1] eqn:E1. cbn [fst] in R.
  set (P := if mx =? -1 then _ else _).
  assert (S2 : match fst P with Some s => null s = true | None => mn = mx end).
  { unfold P. destruct (Z.eqb_spec mx (-1)); [reflexivity|].
    pose proof (nest_null a (Z.to_nat (mx - mn)) add1 None Logic.I) as Q.
    destruct (nest a (Z.to_nat (mx - mn)) add1 None) as [s2 add2]. cbn [fst] in *. destruct s2; [exact Q|lia]. }
  assert (S1 : mn = 0 -> s1 = None).
  { intros ->. cbn in E1. congruence. }
  destruct P as [s2 add2]. cbn [fst] in *.
  destruct (Z.eqb_spec mn 0) as [E0|N0].
  - rewrite (S1 E0) in *. destruct s2 as [r2|]; [exact S2|lia].
  - destruct s1 as [r1|]; [|destruct R; lia]. cbn [orb]. destruct s2 as [r2|]; cbn [null]; rewrite R; [rewrite S2, andb_true_r|]; reflexivity.
Qed.

Lemma expand_noas r st : noas r -> noas (fst (expand r st)).
Proof.
  revert st. induction r as [| |l|x IHx y IHy|x IHx y IHy|mn mx x IHx]; cbn [noas expand]; intros st N.
  - exact Logic.I.
  - exact N.
  - exact Logic.I.
  - destruct N as [N1 N2]. specialize (IHx st N1). destruct (expand x st) as [x' s1].
    specialize (IHy s1 N2). destruct (expand y s1) as [y' s2]. cbn in *. auto.
  - destruct N as [N1 N2]. specialize (IHx st N1). destruct (expand x st) as [x' s1].
    specialize (IHy s1 N2). destruct (expand y s1) as [y' s2]. cbn in *. auto.
  - match goal with |- context[expand x ?s] => specialize (IHx s N); destruct (expand x s) as [x' s1] end.
    cbn [fst] in IHx. destruct (expanded mn mx).
    + assert (U : noas (fst (unroll x' mn mx (pos_add st)))).
      { apply unroll_through; cbn; auto using copy_noas. }
      destruct (unroll x' mn mx (pos_add st)). exact U.
    + exact IHx.
Qed.

Lemma expand_null r st : countsa r -> null (fst (expand r st)) = null r.
Proof.
  revert st. induction r as [| |l|x IHx y IHy|x IHx y IHy|mn mx x IHx]; cbn [countsa expand]; intros st C.
  - reflexivity.
  - reflexivity.
  - reflexivity.
  - destruct C as [N1 N2]. specialize (IHx st N1). destruct (expand x st) as [x' s1].
    specialize (IHy s1 N2). destruct (expand y s1) as [y' s2]. cbn in *. congruence.
  - destruct C as [N1 N2]. specialize (IHx st N1). destruct (expand x st) as [x' s1].
    specialize (IHy s1 N2). destruct (expand y s1) as [y' s2]. cbn in *. congruence.
  - destruct C as [C N].
    match goal with |- context[expand x ?s] => specialize (IHx s N); destruct (expand x s) as [x' s1] end.
    cbn [fst] in IHx. destruct (expanded mn mx).
    + pose proof (unroll_null x' mn mx (pos_add st) C) as U. destruct (unroll x' mn mx (pos_add st)).
      cbn [fst] in *. rewrite U, IHx. reflexivity.
    + cbn. rewrite IHx. reflexivity.
Qed.

(** Masks, counts and assertions are as the automaton wants them after the expansion. *)
Lemma expand_shape r st :
  countsa r -> masks r -> plains r ->
  masks (fst (expand r st)) /\ simple (fst (expand r st)) /\ plain (fst (expand r st)).
Proof.
  revert st. induction r as [| |l|x IHx y IHy|x IHx y IHy|mn mx x IHx]; cbn [countsa masks plains expand]; intros st C M P.
  - cbn. auto.
  - cbn. auto.
  - cbn. auto.
  - destruct C as [C1 C2], M as [M1 M2], P as [P1 P2]. specialize (IHx st C1 M1 P1). destruct (expand x st) as [x' s1].
    specialize (IHy s1 C2 M2 P2). destruct (expand y s1) as [y' s2]. cbn in *. tauto.
  - destruct C as [C1 C2], M as [M1 M2], P as (P1 & P2 & P3). specialize (IHx st C1 M1 P1).
    pose proof (expand_noas x st) as Nx. pose proof (expand_null x st C1) as Ux. destruct (expand x st) as [x' s1].
    specialize (IHy s1 C2 M2 P2). pose proof (expand_null y s1 C2) as Uy. destruct (expand y s1) as [y' s2]. cbn in *.
    rewrite Ux, Uy. split; [tauto|]. split; [tauto|]. split; [tauto|]. split; [tauto|].
    intros H1 H2. apply noas_emp. auto.
  - destruct C as [C1 C2], P as [P1 P2].
    match goal with |- context[expand x ?s] => specialize (IHx s C2 M P1); pose proof (expand_noas x s) as Nx;
      pose proof (expand_null x s C2) as Ux; destruct (expand x s) as [x' s1] end.
    cbn [fst] in *. destruct IHx as (I1 & I2 & I3).
    assert (Em : null x' = true -> emp x' = 0).
    { rewrite Ux. intros H. apply noas_emp. auto. }
    destruct (expanded mn mx) eqn:X.
    + assert (U1 : masks (fst (unroll x' mn mx (pos_add st)))) by (apply unroll_through; cbn; auto using copy_masks).
      assert (U2 : simple (fst (unroll x' mn mx (pos_add st)))) by (apply unroll_through; cbn; auto 8 using copy_simple).
      assert (U3 : plain (fst (unroll x' mn mx (pos_add st)))).
      { apply unroll_through; cbn; auto using copy_plain. intros k. split; [apply copy_plain; exact I3|].
        rewrite copy_null, copy_emp. exact Em. }
      destruct (unroll x' mn mx (pos_add st)). cbn [fst] in *. auto.
    + cbn. split; [exact I1|]. split; [|auto]. unfold expanded in X. apply orb_false_iff in X.
      rewrite !Z.ltb_ge in X. destruct C1 as [C11 C12]. split; [lia|]. split; [lia|exact I2].
Qed.

(** ** What the parser builds *)

Section Parse.
Context (E : env) (txt : list Z).

Lemma set_node_bracket pos ss : forall node, bracket pos node -> bracket pos (set_node pos node ss).
Proof. induction ss as [|s ss IH]; intros node B; [exact B|]. cbn. apply IH. cbn. auto. Qed.

Lemma set_node_den pos ss : forall node i j,
  den E txt (set_node pos node ss) i j <->
  den E txt node i j \/ exists s, In s ss /\ j = S i /\ exists c, char_at txt i = Some c /\ in_item E s c.
Proof.
  induction ss as [|s ss IH]; intros node i j; cbn [set_node].
  - split; [auto|]. intros [H|(s & [] & _)]. exact H.
  - rewrite IH. cbn [den]. split.
    + intros [[H|[-> (c & C & H)]]|(t & I & H)]; [auto| |].
      * right. exists s. split; [left; reflexivity|]. split; [reflexivity|]. exists c. auto.
      * right. exists t. split; [right; exact I|exact H].
    + intros [H|(t & [<-|I] & -> & c & C & H)]; [auto| |].
      * left. right. split; [reflexivity|]. exists c. auto.
      * right. exists t. split; [exact I|]. split; [reflexivity|]. exists c. auto.
Qed.

Lemma set_node_lits pos ss : forall node, lits node <= lits (set_node pos node ss).
Proof. induction ss as [|s ss IH]; intros node; cbn; [lia|]. specialize (IH (Alt node (Lit (lit_of pos s)))). cbn in IH. lia. Qed.

Lemma number_tidy p : counts p -> forall pos, let '(r, pos') := number p pos in tidy r pos pos'.
Proof.
  induction p as [|a|s ss|x IHx y IHy|x IHx y IHy|mn mx x IHx]; cbn [counts number]; intros C pos.
  - reflexivity.
  - reflexivity.
  - assert (B : bracket pos (set_node pos (Lit (lit_of pos s)) ss)) by (apply set_node_bracket; reflexivity).
    revert B. generalize (set_node pos (Lit (lit_of pos s)) ss). intros r B. destruct r; cbn in B; try contradiction; cbn; auto.
  - destruct C as [C1 C2]. specialize (IHx C1 pos). destruct (number x pos) as [x' p1].
    specialize (IHy C2 p1). destruct (number y p1) as [y' p2]. cbn. exists p1. auto.
  - destruct C as [C1 C2]. specialize (IHx C1 pos). destruct (number x pos) as [x' p1].
    specialize (IHy C2 p1). destruct (number y p1) as [y' p2]. cbn. right. exists p1. auto.
  - destruct C as [C1 C2]. specialize (IHx C2 pos). destruct (number x pos) as [x' p1].
    destruct ((mn =? 0) && (mx =? 0)) eqn:Z0.
    + apply andb_true_iff in Z0. rewrite !Z.eqb_eq in Z0. destruct C1. lia.
    + cbn. auto.
Qed.

Lemma code_ok a : okm (code a).
Proof. destruct a; split; reflexivity. Qed.

Lemma before_0 i : Z.of_nat i = 0 -> i = O.
Proof. lia. Qed.

Lemma word_spec c : word E c = true <-> word_char E c.
Proof. unfold word, word_char. rewrite orb_true_iff, Z.eqb_eq. tauto. Qed.

Lemma word_spec0 c : word E c = false <-> ~ word_char E c.
Proof. rewrite <- word_spec. destruct (word E c); intuition discriminate. Qed.

Lemma chk_holds a i : chk E txt (code a) i <-> holds E txt a i.
Proof.
  unfold chk, holds. generalize (before txt i) (after txt i). intros p n.
  pose proof (word_spec p) as Wp. pose proof (word_spec n) as Wn.
  destruct a; cbn zeta iota beta;
    rewrite <- ?Wp, <- ?Wn; unfold fails;
    repeat match goal with |- context[has ?m ?b] => let v := eval vm_compute in (has m b) in change (has m b) with v end;
    cbn [andb orb]; rewrite ?orb_false_r; clear Wp Wn.
  - destruct (Z.ltb_spec 0 (Z.of_nat i)), (notbol E), (Z.eqb_spec p 10), (newline E); cbn; split; intros H1; try discriminate; try tauto;
      try (left; split; [lia|reflexivity]); destruct H1 as [[? ?]|[? ?]]; try discriminate; try contradiction; try lia; reflexivity.
  - destruct (Z.eqb_spec n 0), (noteol E), (Z.eqb_spec n 10), (newline E); cbn; split; intros H1; try discriminate; try tauto;
      try (left; split; [lia|reflexivity]); destruct H1 as [[? ?]|[? ?]]; try discriminate; try contradiction; try lia; reflexivity.
  - destruct (word E p), (word E n); cbn; intuition congruence.
  - destruct (word E p), (word E n); cbn; intuition congruence.
  - assert (Z0 : Z.of_nat i = 0 <-> i = O) by lia. rewrite <- Z0. clear Z0.
    destruct (Z.eqb_spec (Z.of_nat i) 0), (Z.eqb_spec n 0), (word E p), (word E n); cbn; intuition congruence.
  - assert (Z0 : Z.of_nat i = 0 <-> i = O) by lia. rewrite <- Z0. clear Z0.
    destruct (Z.eqb_spec (Z.of_nat i) 0), (Z.eqb_spec n 0), (word E p), (word E n); cbn; intuition congruence.
Qed.

Lemma number_den p : counts p -> forall pos i j,
  den E txt (fst (number p pos)) i j <-> matches E txt p i j.
Proof.
  induction p as [|a|s ss|x IHx y IHy|x IHx y IHy|mn mx x IHx]; cbn [counts number matches]; intros C pos i j.
  - reflexivity.
  - cbn. rewrite chk_holds. reflexivity.
  - cbn [fst]. rewrite set_node_den. cbn [den]. split.
    + intros [[-> (c & Hc & H)]|(t & I & -> & c & Hc & H)].
      * split; [reflexivity|]. exists c, s. split; [exact Hc|]. split; [left; reflexivity|exact H].
      * split; [reflexivity|]. exists c, t. split; [exact Hc|]. split; [right; exact I|exact H].
    + intros [-> (c & t & Hc & [<-|I] & H)].
      * left. split; [reflexivity|]. exists c. auto.
      * right. exists t. split; [exact I|]. split; [reflexivity|]. exists c. auto.
  - destruct C as [C1 C2]. specialize (IHx C1 pos). destruct (number x pos) as [x' p1].
    specialize (IHy C2 p1). destruct (number y p1) as [y' p2]. cbn in *.
    split; intros (k & H1 & H2); exists k; (split; [apply IHx; exact H1|apply IHy; exact H2]).
  - destruct C as [C1 C2]. specialize (IHx C1 pos). destruct (number x pos) as [x' p1].
    specialize (IHy C2 p1). destruct (number y p1) as [y' p2]. cbn in *. rewrite IHx, IHy. reflexivity.
  - destruct C as [C1 C2]. specialize (IHx C2 pos). destruct (number x pos) as [x' p1].
    destruct ((mn =? 0) && (mx =? 0)) eqn:Z0.
    + apply andb_true_iff in Z0. rewrite !Z.eqb_eq in Z0. destruct C1. lia.
    + cbn [fst den] in *. split; intros (n & H & L); exists n; (split; [|exact L]); (eapply times_ext; [|exact H]); intros u v; [symmetry|]; apply IHx.
Qed.
End Parse.

Lemma set_node_shape pos ss : forall node,
  bracket pos node -> null (set_node pos node ss) = false /\ noas (set_node pos node ss)
  /\ (forall P : ast -> Prop, True) /\ masks (set_node pos node ss) /\ plains (set_node pos node ss)
  /\ countsa (set_node pos node ss) /\ clsok (set_node pos node ss) /\ shallowa (set_node pos node ss)
  /\ onedeep (set_node pos node ss) /\ nobound (set_node pos node ss).
Proof.
  intros node B. pose proof (set_node_bracket pos ss node B) as H. revert H.
  generalize (set_node pos node ss). clear. intros r B.
  induction r; cbn in B; try contradiction.
  - cbn. tauto.
  - destruct B as [B1 B2]. specialize (IHr1 B1). specialize (IHr2 B2).
    destruct IHr1 as (Q1 & ?), IHr2 as (Q2 & ?). cbn. rewrite Q1, Q2. intuition discriminate.
Qed.

Lemma set_node_nocls pos ss : forall node,
  nocls node -> (forall x, In x ss -> i_cls x = 0 /\ i_neg x = []) -> nocls (set_node pos node ss).
Proof.
  induction ss as [|s ss IH]; intros node N H; [exact N|]. cbn. apply IH.
  - cbn. split; [exact N|]. apply H. left. reflexivity.
  - intros x I. apply H. right. exact I.
Qed.

Lemma bounded_spec mn mx : expanded mn mx = true <-> bounded mn mx.
Proof. unfold expanded, bounded. rewrite orb_true_iff, !Z.ltb_lt. reflexivity. Qed.

(** The parser's trees inherit the conditions on the pattern. *)
Lemma number_null p : counts p -> forall pos, null (fst (number p pos)) = true <-> may_be_empty p.
Proof.
  induction p as [|a|s ss|x IHx y IHy|x IHx y IHy|mn mx x IHx]; cbn [counts number may_be_empty]; intros C pos.
  - cbn. tauto.
  - cbn. tauto.
  - cbn [fst]. destruct (set_node_shape pos ss (Lit (lit_of pos s)) eq_refl) as [-> _]. split; [discriminate|tauto].
  - destruct C as [C1 C2]. specialize (IHx C1 pos). destruct (number x pos) as [x' p1].
    specialize (IHy C2 p1). destruct (number y p1) as [y' p2]. cbn in *. rewrite andb_true_iff. tauto.
  - destruct C as [C1 C2]. specialize (IHx C1 pos). destruct (number x pos) as [x' p1].
    specialize (IHy C2 p1). destruct (number y p1) as [y' p2]. cbn in *. rewrite orb_true_iff. tauto.
  - destruct C as [C1 C2]. specialize (IHx C2 pos). destruct (number x pos) as [x' p1].
    destruct ((mn =? 0) && (mx =? 0)) eqn:Z0.
    + apply andb_true_iff in Z0. rewrite !Z.eqb_eq in Z0. destruct C1. lia.
    + cbn in *. rewrite orb_true_iff, Z.eqb_eq. tauto.
Qed.

Ltac num x pos :=
  match goal with |- context[number x pos] => idtac end.

Lemma number_shape p : counts p -> forall pos,
  let r := fst (number p pos) in
  masks r /\ countsa r
  /\ (no_assertion p -> noas r) /\ (placed p -> plains r)
  /\ (no_class p -> nocls r) /\ (class_ok p -> clsok r)
  /\ (no_bounded p -> nobound r) /\ (one_deep p -> onedeep r) /\ (shallow p -> shallowa r).
Proof.
  induction p as [|a|s ss|x IHx y IHy|x IHx y IHy|mn mx x IHx]; intros C pos; cbn zeta.
  - cbn. tauto.
  - cbn. pose proof (code_ok a). tauto.
  - cbn [number fst]. pose proof (set_node_shape pos ss (Lit (lit_of pos s)) eq_refl) as (_ & H1 & _ & H2 & H3 & H4 & H5 & H6 & H7 & H8).
    split; [exact H2|]. split; [exact H4|]. split; [auto|]. split; [auto|]. split; [|auto].
    intros N. cbn [no_class] in N. apply set_node_nocls; [apply N; left; reflexivity|]. intros u I. apply N. right. exact I.
  - cbn [counts] in C. destruct C as [C1 C2]. specialize (IHx C1 pos). cbn [number]. destruct (number x pos) as [x' p1].
    specialize (IHy C2 p1). destruct (number y p1) as [y' p2]. cbn in *. tauto.
  - cbn [counts] in C. destruct C as [C1 C2]. specialize (IHx C1 pos). pose proof (number_null x C1 pos) as Nx. cbn [number].
    destruct (number x pos) as [x' p1].
    specialize (IHy C2 p1). pose proof (number_null y C2 p1) as Ny. destruct (number y p1) as [y' p2]. cbn in *. rewrite Nx, Ny. tauto.
  - cbn [counts] in C. destruct C as [C1 C2]. specialize (IHx C2 pos). pose proof (number_null x C2 pos) as Nx. cbn [number].
    destruct (number x pos) as [x' p1].
    destruct ((mn =? 0) && (mx =? 0)) eqn:Z0.
    + apply andb_true_iff in Z0. rewrite !Z.eqb_eq in Z0. destruct C1. lia.
    + cbn in *. rewrite Nx, bounded_spec.
      assert (X : ~ bounded mn mx -> expanded mn mx = false).
      { intros H. destruct (expanded mn mx) eqn:Q; [|reflexivity]. destruct H. apply bounded_spec. exact Q. }
      tauto.
Qed.
