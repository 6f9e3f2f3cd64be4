(** The theorems about reading patterns. *)
From Coq Require Import ZArith List Bool Lia.
From Verif Require Import NfaModel NfaSpec NfaProps PatModel PatSpec PatProofs PatProofs2.
Import ListNotations.
Open Scope Z_scope.

(** C84. A bracket expression, however it is written within the grammar, is read as one character that is matched by exactly the
    characters it lists, or, negated, by exactly those it does not list, whatever follows it. *)
Theorem bracket_reads L neg ts rest : sane L -> wf_set L neg ts ->
  exists s ss, bracket L (pr_set neg ts ++ rest) = Ok (PSet s ss, rest)
    /\ forall x, is_char x -> ((exists it, In it (s :: ss) /\ in_item (l_env L) it x) <-> in_set L neg ts x).
Proof. intros S W. destruct (bracket_ok L neg ts rest S W) as (s & ss & E & _ & B). eauto. Qed.

(** ** The meaning of the tree *)

Lemma literal_takes L txt c i j : sane L -> (matches (l_env L) txt (literal L c) i j <-> j = S i /\ exists x, char_at txt i = Some x /\ alike L c x).
Proof.
  intros Sn. unfold literal. destruct (icase (l_env L) && (upper L c || lower L c)) eqn:E; cbn [matches one].
  - apply andb_prop in E as [I E]. apply and_iff_compat_l. destruct (Sn c) as (A & B & C & _).
    assert (Q : forall x, (x = upc (l_env L) c \/ x = lowc (l_env L) c) <-> alike L c x).
    { intros x. unfold alike. rewrite I. apply orb_prop in E as [E|E].
      - assert (lower L c = false) by (destruct (lower L c) eqn:Q; [rewrite A in E by reflexivity; discriminate|reflexivity]).
        assert (upc (l_env L) c = c) by (destruct (Z.eq_dec (upc (l_env L) c) c); [assumption|apply B in n; congruence]).
        split; [intros [->| ->]; auto|]. intros [->|[_ [[F _]|[_ ->]]]]; [left; congruence|congruence|auto].
      - assert (upper L c = false) by auto.
        assert (lowc (l_env L) c = c) by (destruct (Z.eq_dec (lowc (l_env L) c) c); [assumption|apply C in n; congruence]).
        split; [intros [->| ->]; auto|]. intros [->|[_ [[_ ->]|[F _]]]]; [right; congruence|auto|congruence]. }
    split.
    + intros (x & it & Ch & [<-|[<-|[]]] & R & _); exists x; (split; [exact Ch|]); apply Q; cbn in R; lia.
    + intros (x & Ch & F). apply Q in F. exists x. destruct F as [F|F]; eexists; (split; [exact Ch|]).
      * split; [left; reflexivity|]. split; [cbn; lia|]. split; [cbn; congruence|intros ? []].
      * split; [right; left; reflexivity|]. split; [cbn; lia|]. split; [cbn; congruence|intros ? []].
  - apply and_iff_compat_l.
    assert (Q : forall x, x = c <-> alike L c x).
    { intros x. unfold alike. split; [auto|]. intros [F|[I F]]; [exact F|]. rewrite I in E. cbn [andb] in E. apply orb_false_iff in E as [E1 E2]. destruct F as [[F _]|[F _]]; congruence. }
    split.
    + intros (x & it & Ch & [<-|[]] & R & _); exists x; (split; [exact Ch|]); apply Q; cbn in R; lia.
    + intros (x & Ch & F). apply Q in F. exists x. eexists. split; [exact Ch|]. split; [left; reflexivity|]. split; [cbn; lia|]. split; [cbn; congruence|intros ? []].
Qed.

Lemma one_takes E txt lo hi i j : matches E txt (one lo hi) i j <-> j = S i /\ exists x, char_at txt i = Some x /\ lo <= x <= hi.
Proof.
  cbn [matches one]. apply and_iff_compat_l. split.
  - intros (x & it & Ch & [<-|[]] & R & _). eauto.
  - intros (x & Ch & F). exists x. eexists. split; [exact Ch|]. split; [left; reflexivity|]. split; [cbn; lia|]. split; [cbn; congruence|intros ? []].
Qed.

Lemma char_in txt i x : (forall c, In c txt -> is_char c) -> char_at txt i = Some x -> is_char x.
Proof. intros H C. apply H. eapply nth_error_In. exact C. Qed.

Lemma set_takes L neg ts p txt i j : (forall c, In c txt -> is_char c) -> set_built L neg ts p ->
  (matches (l_env L) txt p i j <-> j = S i /\ exists x, char_at txt i = Some x /\ in_set L neg ts x).
Proof.
  intros T (s & ss & -> & _ & B). cbn [matches]. apply and_iff_compat_l. split.
  - intros (x & it & Ch & I & R). exists x. split; [exact Ch|]. apply B; [eapply char_in; eassumption|]. eauto.
  - intros (x & Ch & F). apply B in F as (it & I & R); [|eapply char_in; eassumption]. eauto.
Qed.

Lemma simple_means L txt a p i j : sane L -> (forall c, In c txt -> is_char c) -> simple_built L a p ->
  (matches (l_env L) txt p i j <-> means L txt (XSimple a) i j).
Proof.
  intros S T B. destruct a as [c|c|k c|h1 h2|hs| |a|neg ts|k]; cbn [simple_built] in B; try subst p; cbn [means takes].
  - now apply literal_takes.
  - rewrite one_takes. apply and_iff_compat_l. split; intros (x & Ch & R); exists x; (split; [exact Ch|lia]).
  - now apply literal_takes.
  - rewrite one_takes. apply and_iff_compat_l. split; intros (x & Ch & R); exists x; (split; [exact Ch|lia]).
  - rewrite one_takes. apply and_iff_compat_l. split; intros (x & Ch & R); exists x; (split; [exact Ch|lia]).
  - destruct (newline (l_env L)).
    + change (matches (l_env L) txt (PAlt (one 0 9) (one 11 char_max)) i j) with (matches (l_env L) txt (one 0 9) i j \/ matches (l_env L) txt (one 11 char_max) i j).
      rewrite !one_takes. split.
      * intros [(E & x & Ch & R)|(E & x & Ch & R)]; (split; [exact E|]); exists x; (split; [exact Ch|]); intros _; lia.
      * intros (E & x & Ch & R). specialize (R eq_refl). pose proof (char_in _ _ _ T Ch) as Q. unfold is_char in Q.
        destruct (Z_lt_le_dec x 10); [left|right]; (split; [exact E|]); exists x; (split; [exact Ch|lia]).
    + rewrite one_takes. apply and_iff_compat_l. split; intros (x & Ch & R); exists x; (split; [exact Ch|]); [discriminate|].
      pose proof (char_in _ _ _ T Ch) as Q. unfold is_char in Q. lia.
  - cbn [matches]. reflexivity.
  - now apply set_takes.
  - destruct B as (neg & ts & K & B). rewrite (set_takes L neg ts p txt i j T B). apply and_iff_compat_l. split; intros (x & Ch & F); exists x; (split; [exact Ch|]).
    + eauto.
    + destruct F as (neg' & ts' & K' & F). rewrite K in K'. injection K' as <- <-. exact F.
Qed.

Lemma marksub_means E txt n i j : matches E txt (fst (marksub n)) i j <-> matches E txt (fst n) i j.
Proof. unfold marksub. cbn [fst]. destruct (snd n); [|tauto]. cbn [matches]. split; [intros (k & <- & H); exact H|intros H; exists i; auto]. Qed.

Lemma times_ext (R R' : nat -> nat -> Prop) : (forall i j, R i j <-> R' i j) -> forall n i j, times R n i j <-> times R' n i j.
Proof.
  intros H. induction n as [|n IH]; intros i j; cbn [times]; [tauto|]. split; intros (k & A & B); exists k; (split; [now apply H|now apply IH]).
Qed.

Lemma allows_iff d n : wf_times d -> (allows d n <-> d_min d <= Z.of_nat n /\ (d_max d = -1 \/ Z.of_nat n <= d_max d)).
Proof.
  intros W. destruct d as [| | |k|k|k m]; cbn [allows d_min d_max wf_times] in *; try lia.
  - pose proof (number_nonneg k W). lia.
  - destruct W as (_ & W & _). pose proof (number_nonneg m W). lia.
Qed.

Lemma built_means L txt : sane L -> (forall c, In c txt -> is_char c) -> forall r n, wf L r -> built L r n ->
  forall i j, matches (l_env L) txt (fst n) i j <-> means L txt r i j.
Proof.
  intros S T. induction r as [|a|r IH|r IH d|x IHx y IHy|x IHx y IHy]; intros n W B i j; cbn [built wf] in *.
  - subst n. reflexivity.
  - destruct B as [_ B]. now apply simple_means.
  - destruct B as (m & B & ->). rewrite marksub_means. cbn [means]. now apply IH.
  - destruct B as (m & B & ->). destruct W as (_ & W & Wd). cbn [fst matches means]. split; intros (k & A).
    + destruct A as [A Al]. exists k. split; [now apply (allows_iff d k Wd)|]. eapply times_ext; [|exact A]. intros. symmetry. now apply IH.
    + destruct A as [Al A]. exists k. split; [|now apply (allows_iff d k Wd)]. eapply times_ext; [|exact A]. intros. now apply IH.
  - destruct W as (_ & _ & _ & Wx & Wy). destruct B as (a & b & Bx & By & ->). cbn [fst matches means].
    split; intros (k & A1 & A2); exists k; (split; [now apply (IHx a Wx Bx)|now apply (IHy b Wy By)]).
  - destruct W as (_ & Wx & Wy). destruct B as (a & b & Bx & By & ->). cbn [fst matches means]. now rewrite (IHx a Wx Bx), (IHy b Wy By).
Qed.

(** C85. Every pattern of the grammar is read as what it says: the tree matches the same pieces of every text. *)
Theorem pattern_reads L r txt : sane L -> wf L r -> (forall c, In c txt -> is_char c) ->
  exists p, tre_parse L (pr r) = Ok p /\ forall i j, matches (l_env L) txt p i j <-> means L txt r i j.
Proof.
  intros S W T. destruct (read_whole L r S W) as (n & B & E). exists (fst (marksub n)). split; [exact E|].
  intros i j. rewrite marksub_means. now apply built_means.
Qed.

(** ** The conditions *)

Lemma counts_marksub n : counts (fst n) -> counts (fst (marksub n)).
Proof. unfold marksub. cbn [fst]. destruct (snd n); cbn [counts]; tauto. Qed.
Lemma bounded_iff d : wf_times d -> (bounded (d_min d) (d_max d) <-> written_out d).
Proof. intros W. unfold bounded. destruct d as [| | |k|k|k m]; cbn [d_min d_max written_out wf_times] in *; try lia. Qed.
Lemma min_zero d : d_min d = 0 <-> may_be_zero d.
Proof. destruct d; cbn [d_min may_be_zero]; lia. Qed.

Lemma simple_flat L a p : simple_built L a p -> counts p /\ no_bounded p /\ one_deep p /\ shallow p /\ class_ok p /\ placed p
  /\ (~ has_class a -> no_class p) /\ (~ is_assertion a -> no_assertion p) /\ (may_be_empty p -> is_assertion a).
Proof.
  assert (O : forall lo hi, counts (one lo hi) /\ no_bounded (one lo hi) /\ one_deep (one lo hi) /\ shallow (one lo hi) /\ class_ok (one lo hi) /\ placed (one lo hi) /\ no_class (one lo hi) /\ no_assertion (one lo hi) /\ ~ may_be_empty (one lo hi)).
  { intros. cbn. repeat split; auto; intros; intuition (subst; auto). }
  assert (Lt : forall c, counts (literal L c) /\ no_bounded (literal L c) /\ one_deep (literal L c) /\ shallow (literal L c) /\ class_ok (literal L c) /\ placed (literal L c) /\ no_class (literal L c) /\ no_assertion (literal L c) /\ ~ may_be_empty (literal L c)).
  { intros c. unfold literal. destruct (_ && _); [|apply O]. cbn. repeat split; auto; intros; intuition (subst; auto). }
  assert (St : forall neg ts, set_built L neg ts p -> counts p /\ no_bounded p /\ one_deep p /\ shallow p /\ class_ok p /\ placed p /\ (filter is_class ts = [] -> no_class p) /\ no_assertion p /\ ~ may_be_empty p).
  { intros neg ts (s & ss & -> & N & _). cbn. repeat split; auto; intros; apply N; auto. }
  intros B. destruct a as [c|c|k c|h1 h2|hs| |a|neg ts|k]; cbn [simple_built has_class is_assertion] in *; try subst p.
  - destruct (Lt c). tauto.
  - destruct (O c c). tauto.
  - destruct (Lt c). tauto.
  - match goal with |- context [one ?x ?y] => destruct (O x y) end. tauto.
  - match goal with |- context [one ?x ?y] => destruct (O x y) end. tauto.
  - destruct (newline _); [|destruct (O 0 char_max); tauto].
    destruct (O 0 9) as (A1 & A2 & A3 & A4 & A5 & A6 & A7 & A8 & A9), (O 11 char_max) as (B1 & B2 & B3 & B4 & B5 & B6 & B7 & B8 & B9).
    split; [split; assumption|]. split; [split; assumption|]. split; [split; assumption|]. split; [split; assumption|]. split; [split; assumption|].
    split; [split; [assumption|split; [assumption|tauto]]|]. split; [intros _; split; assumption|]. split; [intros _; split; assumption|]. intros [Q|Q]; tauto.
  - cbn. tauto.
  - destruct (St neg ts B) as (A1 & A2 & A3 & A4 & A5 & A6 & A7 & A8 & A9). do 6 (split; [assumption|]).
    split; [|tauto]. intros N. apply A7. destruct (filter is_class ts); [reflexivity|exfalso; apply N; discriminate].
  - destruct B as (neg & ts & _ & B). destruct (St neg ts B) as (A1 & A2 & A3 & A4 & A5 & A6 & A7 & A8 & A9). tauto.
Qed.

Ltac marks := unfold marksub; cbn [fst]; match goal with |- context [if ?b then _ else _] => destruct b end; cbn [counts no_bounded one_deep shallow no_class class_ok may_be_empty no_assertion placed].

Section Conditions.
Variable L : loc.

Lemma built_counts : forall r n, wf L r -> built L r n -> plain_counts r -> counts (fst n).
Proof.
  unfold plain_counts. induction r as [|a|r IH|r IH d|x IHx y IHy|x IHx y IHy]; intros n W B P; cbn [built wf all_times] in *.
  - subst. exact Logic.I.
  - destruct B as [_ B]. apply (simple_flat L a _ B).
  - destruct B as (m & B & ->). specialize (IH m W B P). marks; tauto.
  - destruct B as (m & B & ->). destruct W as (_ & W & Wd), P as (Pd & P). cbn [fst counts]. split; [|exact (IH m W B P)].
    unfold count_ok. destruct d as [| | |k|k|k l]; cbn [d_min d_max wf_times not_zero] in *; try lia.
    + pose proof (number_nonneg k Wd). lia.
    + pose proof (number_nonneg k Wd). lia.
    + destruct Wd as (W1 & W2 & Le). pose proof (number_nonneg k W1). lia.
  - destruct W as (_ & _ & _ & Wx & Wy). destruct B as (a & b & Bx & By & ->). destruct P. cbn [fst counts]. auto.
  - destruct W as (_ & Wx & Wy). destruct B as (a & b & Bx & By & ->). destruct P. cbn [fst counts]. auto.
Qed.

Lemma built_no_bounded : forall r n, wf L r -> built L r n -> all_times (fun _ d => ~ written_out d) r -> no_bounded (fst n).
Proof.
  induction r as [|a|r IH|r IH d|x IHx y IHy|x IHx y IHy]; intros n W B P; cbn [built wf all_times] in *.
  - subst. exact Logic.I.
  - destruct B as [_ B]. apply (simple_flat L a _ B).
  - destruct B as (m & B & ->). specialize (IH m W B P). marks; tauto.
  - destruct B as (m & B & ->). destruct W as (_ & W & Wd), P as (Pd & P). cbn [fst no_bounded]. rewrite (bounded_iff d Wd). split; [exact Pd|exact (IH m W B P)].
  - destruct W as (_ & _ & _ & Wx & Wy). destruct B as (a & b & Bx & By & ->). destruct P. cbn [fst no_bounded]. auto.
  - destruct W as (_ & Wx & Wy). destruct B as (a & b & Bx & By & ->). destruct P. cbn [fst no_bounded]. auto.
Qed.

Lemma built_one_deep : forall r n, wf L r -> built L r n -> all_times (fun r _ => all_times (fun _ d => ~ written_out d) r) r -> one_deep (fst n).
Proof.
  induction r as [|a|r IH|r IH d|x IHx y IHy|x IHx y IHy]; intros n W B P; cbn [built wf all_times] in *.
  - subst. exact Logic.I.
  - destruct B as [_ B]. apply (simple_flat L a _ B).
  - destruct B as (m & B & ->). specialize (IH m W B P). marks; tauto.
  - destruct B as (m & B & ->). destruct W as (_ & W & Wd), P as (Pd & P). cbn [fst one_deep]. exact (built_no_bounded r m W B Pd).
  - destruct W as (_ & _ & _ & Wx & Wy). destruct B as (a & b & Bx & By & ->). destruct P. cbn [fst one_deep]. auto.
  - destruct W as (_ & Wx & Wy). destruct B as (a & b & Bx & By & ->). destruct P. cbn [fst one_deep]. auto.
Qed.

Lemma built_shallow : forall r n, wf L r -> built L r n -> not_deep r -> shallow (fst n).
Proof.
  unfold not_deep. induction r as [|a|r IH|r IH d|x IHx y IHy|x IHx y IHy]; intros n W B P; cbn [built wf all_times] in *.
  - subst. exact Logic.I.
  - destruct B as [_ B]. apply (simple_flat L a _ B).
  - destruct B as (m & B & ->). specialize (IH m W B P). marks; tauto.
  - destruct B as (m & B & ->). destruct W as (_ & W & Wd), P as (Pd & P). cbn [fst shallow]. exact (built_one_deep r m W B Pd).
  - destruct W as (_ & _ & _ & Wx & Wy). destruct B as (a & b & Bx & By & ->). destruct P. cbn [fst shallow]. auto.
  - destruct W as (_ & Wx & Wy). destruct B as (a & b & Bx & By & ->). destruct P. cbn [fst shallow]. auto.
Qed.

Lemma built_no_class : forall r n, wf L r -> built L r n -> all_simple (fun a => ~ has_class a) r -> no_class (fst n).
Proof.
  induction r as [|a|r IH|r IH d|x IHx y IHy|x IHx y IHy]; intros n W B P; cbn [built wf all_simple] in *.
  - subst. exact Logic.I.
  - destruct B as [_ B]. now apply (simple_flat L a _ B).
  - destruct B as (m & B & ->). specialize (IH m W B P). marks; tauto.
  - destruct B as (m & B & ->). destruct W as (_ & W & Wd). cbn [fst no_class]. exact (IH m W B P).
  - destruct W as (_ & _ & _ & Wx & Wy). destruct B as (a & b & Bx & By & ->). destruct P. cbn [fst no_class]. auto.
  - destruct W as (_ & Wx & Wy). destruct B as (a & b & Bx & By & ->). destruct P. cbn [fst no_class]. auto.
Qed.

Lemma built_class_ok : forall r n, wf L r -> built L r n -> no_counted_class r -> class_ok (fst n).
Proof.
  unfold no_counted_class. induction r as [|a|r IH|r IH d|x IHx y IHy|x IHx y IHy]; intros n W B P; cbn [built wf all_times] in *.
  - subst. exact Logic.I.
  - destruct B as [_ B]. apply (simple_flat L a _ B).
  - destruct B as (m & B & ->). specialize (IH m W B P). marks; tauto.
  - destruct B as (m & B & ->). destruct W as (_ & W & Wd), P as (Pd & P). cbn [fst class_ok]. split; [exact (IH m W B P)|]. rewrite (bounded_iff d Wd).
    intros Q. exact (built_no_class r m W B (Pd Q)).
  - destruct W as (_ & _ & _ & Wx & Wy). destruct B as (a & b & Bx & By & ->). destruct P. cbn [fst class_ok]. auto.
  - destruct W as (_ & Wx & Wy). destruct B as (a & b & Bx & By & ->). destruct P. cbn [fst class_ok]. auto.
Qed.

Lemma built_empty : forall r n, wf L r -> built L r n -> may_be_empty (fst n) -> x_may_be_empty r.
Proof.
  induction r as [|a|r IH|r IH d|x IHx y IHy|x IHx y IHy]; intros n W B P; cbn [built wf x_may_be_empty] in *.
  - exact Logic.I.
  - destruct B as [_ B]. now apply (simple_flat L a _ B).
  - destruct B as (m & B & ->). apply (IH m W B). revert P. unfold marksub. cbn [fst]. destruct (snd m); cbn [may_be_empty]; tauto.
  - destruct B as (m & B & ->). destruct W as (_ & W & Wd). cbn [fst may_be_empty] in P. rewrite min_zero in P. destruct P as [P|P]; [now left|right; exact (IH m W B P)].
  - destruct W as (_ & _ & _ & Wx & Wy). destruct B as (a & b & Bx & By & ->). destruct P as [P1 P2]. split; eauto.
  - destruct W as (_ & Wx & Wy). destruct B as (a & b & Bx & By & ->). destruct P as [P|P]; [left|right]; eauto.
Qed.

Lemma built_no_assertion : forall r n, wf L r -> built L r n -> all_simple (fun a => ~ is_assertion a) r -> no_assertion (fst n).
Proof.
  induction r as [|a|r IH|r IH d|x IHx y IHy|x IHx y IHy]; intros n W B P; cbn [built wf all_simple] in *.
  - subst. exact Logic.I.
  - destruct B as [_ B]. now apply (simple_flat L a _ B).
  - destruct B as (m & B & ->). specialize (IH m W B P). marks; tauto.
  - destruct B as (m & B & ->). destruct W as (_ & W & Wd). cbn [fst no_assertion]. exact (IH m W B P).
  - destruct W as (_ & _ & _ & Wx & Wy). destruct B as (a & b & Bx & By & ->). destruct P. cbn [fst no_assertion]. auto.
  - destruct W as (_ & Wx & Wy). destruct B as (a & b & Bx & By & ->). destruct P. cbn [fst no_assertion]. auto.
Qed.

Lemma built_placed : forall r n, wf L r -> built L r n -> assertions_apart r -> placed (fst n).
Proof.
  unfold assertions_apart. induction r as [|a|r IH|r IH d|x IHx y IHy|x IHx y IHy]; intros n W B [P Q]; cbn [built wf all_times all_or] in *.
  - subst. exact Logic.I.
  - destruct B as [_ B]. apply (simple_flat L a _ B).
  - destruct B as (m & B & ->). specialize (IH m W B (conj P Q)). marks; tauto.
  - destruct B as (m & B & ->). destruct W as (_ & W & Wd), P as (Pd & P). cbn [fst placed]. split; [exact (IH m W B (conj P Q))|].
    intros E. exact (built_no_assertion r m W B (Pd (built_empty r m W B E))).
  - destruct W as (_ & _ & _ & Wx & Wy). destruct B as (a & b & Bx & By & ->). destruct P, Q. cbn [fst placed]. auto.
  - destruct W as (_ & Wx & Wy). destruct B as (a & b & Bx & By & ->). destruct P, Q as (Q0 & Qx & Qy). cbn [fst placed].
    split; [auto|]. split; [auto|]. intros [E1 E2]. apply (built_no_assertion x a Wx Bx), Q0. split; [exact (built_empty x a Wx Bx E1)|exact (built_empty y b Wy By E2)].
Qed.
End Conditions.

(** Compiling a pattern and searching a text for it finds it exactly when some piece of the text is one of those that
    the pattern, as it is written, stands for. *)
Theorem search_finds L r txt : sane L -> wf L r -> searchable r -> (forall c, In c txt -> is_char c) ->
  exists b, search L (pr r) txt = Ok b /\ (b = true <-> exists i j, (i <= j <= length txt)%nat /\ means L txt r i j).
Proof.
  intros S W (C1 & C2 & C3 & C4) T. destruct (read_whole L r S W) as (n & B & E). unfold search. rewrite E. eexists. split; [reflexivity|].
  assert (X : counts (fst (marksub n)) /\ shallow (fst (marksub n)) /\ class_ok (fst (marksub n)) /\ placed (fst (marksub n))).
  { pose proof (built_counts L r n W B C1). pose proof (built_shallow L r n W B C3). pose proof (built_class_ok L r n W B C2). pose proof (built_placed L r n W B C4).
    unfold marksub. cbn [fst]. destruct (snd n); cbn [counts shallow class_ok placed]; tauto. }
  destruct X as (X1 & X2 & X3 & X4). rewrite (finds (l_env L) _ txt); auto; [|intros c I; specialize (T c I); unfold is_char in T; lia].
  unfold found. split; intros (i & j & R & M); exists i, j; (split; [exact R|]); [rewrite marksub_means in M|rewrite marksub_means]; now apply (built_means L txt S T r n W B).
Qed.

(** Reading a pattern always ends, with a tree or an error, whatever the text is. *)
Theorem parse_total L s : tre_parse L s <> Err Fuel /\ forall txt, search L s txt <> Err Fuel.
Proof.
  split; [apply tre_parse_ends|]. intros txt. unfold search. pose proof (tre_parse_ends L s). destruct (tre_parse L s); [discriminate|congruence].
Qed.

(** The counts of a pattern that is accepted are within bounds. *)
Fixpoint limits (p : pat) : Prop :=
  match p with
  | PEmpty | PAt _ | PSet _ _ => True
  | PCat x y | PAlt x y => limits x /\ limits y
  | PRep mn mx x => 0 <= mn <= 255 /\ (mx = -1 \/ mn <= mx <= 255) /\ limits x
  end.
Lemma plain_atom_limits L s p r : plain_atom L s = Ok (p, r) -> limits p.
Proof.
  destruct s as [|c s]; cbn [plain_atom]; [intros [= <- _]; exact Logic.I|].
  destruct (c =? 91).
  - unfold bracket. destruct (terms L _ _ _ _ _ _) as [[[ls neg] rest]|]; [|discriminate].
    match goal with |- context [match ?y with Some _ => _ | None => Err ESpace end] => destruct y as [[|? ?]|] end; try discriminate. intros [= <- _]. exact Logic.I.
  - destruct (c =? 46); [destruct (newline _); intros [= <- _]; cbn; auto|].
    destruct (c =? 94); [intros [= <- _]; exact Logic.I|]. destruct (c =? 36); [intros [= <- _]; exact Logic.I|].
    destruct (_ || _); intros [= <- _]; [exact Logic.I|]. unfold literal. destruct (_ && _); exact Logic.I.
Qed.
Lemma atom_limits L s p r : atom L s = Ok (p, r) -> limits p.
Proof.
  unfold atom. destruct (head s =? 92); [|apply plain_atom_limits]. destruct (tl s) as [|c s']; cbn [escape]; [discriminate|]. destruct (macro c).
  - destruct (plain_atom L l) as [[n r']|] eqn:E; [|discriminate]. intros [= <- _]. now apply plain_atom_limits in E.
  - destruct (c =? 98); [intros [= <- _]; exact Logic.I|]. destruct (c =? 66); [intros [= <- _]; exact Logic.I|]. destruct (c =? 60); [intros [= <- _]; exact Logic.I|].
    destruct (c =? 62); [intros [= <- _]; exact Logic.I|]. destruct (c =? 120).
    + destruct (head s' =? 123); [destruct (hex_digits 8 (tl s') 0) as [v u]; destruct (head u =? 125); [|discriminate]; intros [= <- _]; exact Logic.I|].
      destruct (hex_digits 2 s' 0). intros [= <- _]; exact Logic.I.
    + destruct (isdigit c); [discriminate|]. destruct (128 <=? c); [discriminate|]. intros [= <- _]; exact Logic.I.
Qed.
Lemma dup_count_min s : -1 <= fst (dup_count s).
Proof.
  unfold dup_count. destruct (isdigit (head s)) eqn:D; [|cbn; lia].
  assert (Q : forall s n, 0 <= n -> isdigit (head s) = true -> 0 <= fst (count_digits s n)).
  { clear. induction s as [|c r IH]; intros n N D; [discriminate|]. cbn [count_digits]. cbn [head hd] in D. apply isdigit_iff in D.
    destruct (isdigit (head r)) eqn:D2; cbn [negb orb]; [|cbn [fst]; lia]. destruct (255 <? _); [cbn [fst]; lia|]. apply IH; [lia|reflexivity]. }
  specialize (Q s 0 ltac:(lia) D). lia.
Qed.
Lemma dup_limits s mn mx r : dup s = Ok (mn, mx, r) -> 0 <= mn <= 255 /\ (mx = -1 \/ mn <= mx <= 255).
Proof.
  unfold dup. pose proof (dup_count_min s) as A. destruct (dup_count s) as [n s1]. cbn [fst] in A.
  assert (B : forall m s2, -1 <= m -> (if ((m <? n) && (0 <=? m)) || (255 <? m) || (255 <? n) || (n <? 0) || negb (head s2 =? 125) then Err BadBr else Ok (n, m, tl s2)) = Ok (mn, mx, r) -> 0 <= mn <= 255 /\ (mx = -1 \/ mn <= mx <= 255)).
  { intros m s2 M. destruct (_ || negb _) eqn:E; [discriminate|]. intros [= <- <- _]. rewrite !orb_false_iff in E. destruct E as ((((E1 & E2) & E3) & E4) & _).
    b2p. apply andb_false_iff in E1 as [E1|E1]; b2p; lia. }
  destruct (head s1 =? 44); [|now apply B]. pose proof (dup_count_min (tl s1)) as C. destruct (dup_count (tl s1)) as [m s2]. cbn [fst] in C. now apply B.
Qed.
Definition opt_limits (n : option node) : Prop := match n with Some n => limits (fst n) | None => True end.
Lemma parse_limits L : forall f stack u b cur s p, Forall (fun ub => opt_limits (fst ub) /\ opt_limits (snd ub)) stack ->
  opt_limits u -> opt_limits b -> opt_limits cur -> parse L f stack u b cur s = Ok p -> limits p.
Proof.
  induction f as [|f IH]; intros stack u b cur s p St U B C H; [discriminate|]. cbn [parse] in H.
  assert (Ct : forall n, limits (fst n) -> limits (fst (cat b n))) by (intros n N; destruct b; cbn; [split; assumption|exact N]).
  assert (Un : forall n, limits (fst n) -> limits (fst (union u n))) by (intros n N; destruct u; cbn; [split; assumption|exact N]).
  assert (Mk : forall n, limits (fst n) -> limits (fst (marksub n))) by (intros n N; unfold marksub; cbn [fst]; destruct (snd n); [cbn; auto|exact N]).
  destruct cur as [n|].
  - cbn [opt_limits] in C. assert (R : forall mn mx, 0 <= mn <= 255 -> mx = -1 \/ mn <= mx <= 255 -> opt_limits (Some (PRep mn mx (fst n), false))) by (intros mn mx Q1 Q2; cbn; auto).
    destruct (head s =? 42); [eapply IH in H; eauto; apply R; lia|]. destruct (head s =? 43); [eapply IH in H; eauto; apply R; lia|].
    destruct (head s =? 63); [eapply IH in H; eauto; apply R; lia|].
    destruct (head s =? 123).
    { destruct (dup (tl s)) as [[[mn mx] s']|] eqn:D; [|discriminate]. apply dup_limits in D as [D1 D2]. eapply IH in H; eauto. }
    destruct (head s =? 124); [eapply IH in H; eauto; cbn; auto|].
    destruct s as [|c r].
    + destruct stack; [|discriminate]. injection H as <-. apply Mk, Un, Ct. exact C.
    + destruct stack as [|[u0 b0] st]; [eapply IH in H; eauto; cbn; auto|]. inversion St as [|? ? [S1 S2] S3]; subst.
      destruct (c =? 41); [eapply IH in H; eauto; cbn; apply Mk, Un, Ct; exact C|]. apply (IH _ _ _ _ _ _ St U (Ct n C : opt_limits (Some (cat b n))) (Logic.I : opt_limits None) H).
  - destruct (head s =? 40); [eapply IH in H; eauto; try exact Logic.I; constructor; auto|].
    destruct (_ && _); [eapply IH in H; eauto; exact Logic.I|]. destruct (atom L s) as [[n s']|] eqn:A; [|discriminate]. apply atom_limits in A. eapply IH in H; eauto.
Qed.
Theorem counts_bounded L s p : tre_parse L s = Ok p -> limits p.
Proof. intros H. eapply parse_limits in H; eauto; exact Logic.I. Qed.

(** A group that is not closed, and counts that are too large or the wrong way round, are refused. *)
Theorem open_group_refused L r : sane L -> wf L r -> tre_parse L (40 :: pr r) = Err EParen.
Proof.
  intros S W. destruct (reads L r S W) as (_ & _ & A). destruct (A [(None, None)] [] ltac:(now left)) as (n & u & b & n' & k & B & Un & E).
  rewrite app_nil_r in E. unfold tre_parse.
  assert (X : parse L (1 + (k + 1)) [] None None None (40 :: pr r) = Err EParen) by (cbn [Nat.add parse head hd tl Z.eqb Pos.eqb]; rewrite E; reflexivity).
  pose proof (tre_parse_ends L (40 :: pr r)) as Y. unfold tre_parse in Y. rewrite <- (parse_mono L _ (1 + (k + 1)) _ _ _ _ _ Y), Nat.add_comm, parse_mono; [exact X|]. rewrite X. discriminate.
Qed.
Theorem bad_count_refused L r k m rest : sane L -> wf L r -> piece r -> number_ok k -> number_ok m -> value m < value k ->
  tre_parse L (pr r ++ [123] ++ k ++ [44] ++ m ++ [125] ++ rest) = Err BadBr.
Proof.
  intros S W P K M V. destruct (reads L r S W) as (A & _). destruct (A P [] None None ([123] ++ k ++ [44] ++ m ++ [125] ++ rest)) as (n & j & B & E).
  unfold tre_parse.
  match goal with |- parse L ?f _ _ _ _ ?t = _ => assert (X : parse L (j + 1) [] None None None t = Err BadBr) end.
  { rewrite E. cbn [app parse head hd tl Z.eqb Pos.eqb]. unfold dup. rewrite dup_count_ok by (assumption || reflexivity). cbn [head hd tl Z.eqb Pos.eqb].
    rewrite dup_count_ok by (assumption || reflexivity). pose proof (number_nonneg m M). replace (value m <? value k) with true by (symmetry; apply Z.ltb_lt; lia).
    replace (0 <=? value m) with true by (symmetry; apply Z.leb_le; lia). reflexivity. }
  match goal with |- parse L ?f _ _ _ _ ?t = _ => pose proof (tre_parse_ends L t) as Y; unfold tre_parse in Y; rewrite <- (parse_mono L _ (j + 1) _ _ _ _ _ Y) end.
  rewrite Nat.add_comm, parse_mono; [exact X|]. rewrite X. discriminate.
Qed.

(** ** Examples *)

(** The ASCII letters and digits. *)
Definition ascii (ic nl : bool) : loc :=
  let low c := (97 <=? c) && (c <=? 122) in
  let up c := (65 <=? c) && (c <=? 90) in
  let dig c := (48 <=? c) && (c <=? 57) in
  {| l_env := {| isct := fun c k => if k =? 1 then dig c else if k =? 2 then low c || up c || dig c else if k =? 3 then (c =? 32) || ((9 <=? c) && (c <=? 13)) else false;
                 upc := fun c => if low c then c - 32 else c; lowc := fun c => if up c then c + 32 else c;
                 alnum := fun c => low c || up c || dig c; notbol := false; noteol := false; newline := nl; icase := ic |};
     lower := low; upper := up;
     wctype := fun nm => match nm with [100; 105; 103; 105; 116] => 1 | [97; 108; 110; 117; 109] => 2 | [115; 112; 97; 99; 101] => 3 | _ => 0 end |}.
Lemma ascii_sane ic nl : sane (ascii ic nl).
Proof.
  intros c. cbn [ascii lower upper l_env upc lowc].
  destruct (97 <=? c) eqn:A, (c <=? 122) eqn:B, (65 <=? c) eqn:C, (c <=? 90) eqn:D; b2p; cbn [andb]; repeat split; intros; try discriminate; try lia; try reflexivity.
Qed.

(** ^([^a-c\]-]{2,3}|\w+?x|[[:digit:]])$ in the grammar: (the text is "^([^]a-c-]{2,3}|\w+x?|[[:digit:]])$"). *)
Definition ex_pat : rx :=
  let set := XSimple (Set_ true [TChar 93; TRange 97 99; TChar 45]) in
  XCat (XCat (XSimple (At Bol))
    (XGroup (XOr (XOr (XTimes set (Between [50] [51]))
                      (XCat (XTimes (XSimple (Cls 119)) Plus) (XTimes (XSimple (Chr 120)) Opt)))
                 (XSimple (Set_ false [TClass [100; 105; 103; 105; 116]])))))
    (XSimple (At Eol)).
Definition ex_text : list Z := [94; 40; 91; 94; 93; 97; 45; 99; 45; 93; 123; 50; 44; 51; 125; 124; 92; 119; 43; 120; 63; 124; 91; 91; 58; 100; 105; 103; 105; 116; 58; 93; 93; 41; 36].
Ltac easy_wf := cbn; unfold wf_set, is_char, char_max, number_ok, value; cbn; repeat (split || intro); intuition (try discriminate; try congruence; try lia); repeat constructor; try lia.
Example ex_reads : pr ex_pat = ex_text /\ wf (ascii true false) ex_pat /\ searchable ex_pat
  /\ search (ascii true false) ex_text [88; 45; 121] = Ok false /\ search (ascii true false) ex_text [88; 33; 121] = Ok true
  /\ search (ascii true false) ex_text [66; 33; 121] = Ok false /\ search (ascii true false) ex_text [97; 98; 99; 120] = Ok true.
Proof.
  split; [reflexivity|]. split.
  { unfold ex_pat. cbn [wf branch piece]. repeat match goal with |- _ /\ _ => split | |- True => exact Logic.I | |- XCat _ _ <> _ => discriminate | |- XTimes _ _ <> _ => discriminate | |- XSimple _ <> _ => discriminate end; try (cbn; exact Logic.I).
    all: try (exists false; eexists; split; [reflexivity|]). all: easy_wf. }
  split. { unfold searchable, plain_counts, no_counted_class, not_deep, assertions_apart, ex_pat. cbn. unfold value. cbn. intuition (try discriminate; try lia). }
  vm_compute. auto.
Qed.

(** When a lower case letter has no upper case (U+0138) the search for the other case of a range stops short: [U+0138-U+0139], ignoring
    case, does not match U+013A, the lower case of U+0139. *)
Definition kra : loc :=
  {| l_env := {| isct := fun _ _ => false; upc := fun c => if c =? 314 then 313 else c; lowc := fun c => if c =? 313 then 314 else c;
                 alnum := fun _ => true; notbol := false; noteol := false; newline := false; icase := true |};
     lower := fun c => (c =? 312) || (c =? 314); upper := fun c => c =? 313; wctype := fun _ => 0 |}.
Theorem icase_range_refuted : exists ts x, wf_set kra false ts /\ is_char x /\ in_set kra false ts x
  /\ search kra ([91] ++ pr_set false ts) [x] = Ok false.
Proof.
  exists [TRange 312 313], 314. split; [cbn; unfold wf_set, is_char, char_max; cbn; repeat split; try lia; intros; discriminate|].
  split; [unfold is_char, char_max; lia|]. split; [|vm_compute; reflexivity].
  cbn. left. cbn. exists 313. split; [lia|]. right. split; [reflexivity|]. right. split; reflexivity.
Qed.
(** An escaped character that is no ASCII character is refused, and an escaped letter is not folded. *)
Theorem escape_refuted : tre_parse (ascii false false) [92; 233] = Err BadPat /\ search (ascii true false) [92; 121] [89] = Ok false
  /\ search (ascii true false) [121] [89] = Ok true.
Proof. vm_compute. auto. Qed.
