(** * Whole programs: the VM against the late semantics and against the standard one. *)
Require Import ZArith List Bool Lia.
From Verif Require Import VmModel VmSpec VmProofs VmProofs2 VmProofs3 VmProofs4 VmProofs6 VmProofs7 VmProofs8.
Import ListNotations.
Local Open Scope Z_scope.

Section Prog.
Context {VS : vsys}.
Notation V := (val VS).
Notation st := (@state VS).
Notation env := (@env VS).
Notation code := (list (@instr VS)).

Lemma run_star : forall (P : code) n c c', star P n c c' -> forall m, run P (n + m) c = run P m c'.
Proof. intros P n c c' H. induction H; intros m; cbn [plus run]; [reflexivity | ]. rewrite H. apply IHstar. Qed.
Lemma run_more : forall (P : code) n m c r, run P n c = r -> (forall c', r <> Run c') -> run P (n + m) c = r.
Proof.
  induction n as [ | n IH]; intros m c r H HN; cbn [plus run] in *; [destruct (HN c); congruence | ].
  destruct (step P c) as [c' | h s | ]; [apply IH; assumption | exact H | exact H].
Qed.
(* after n steps the run either still goes on, as a star says, or has ended *)
Lemma star_prefix : forall (P : code) n c c', star P n c c' -> forall k, (k <= n)%nat -> exists c'', run P k c = Run c''.
Proof.
  intros P n c c' H. induction H as [c | n c c1 c2 H1 H2 IH]; intros k Hk.
  - exists c. replace k with 0%nat by lia. reflexivity.
  - destruct k as [ | k]; [exists c; reflexivity | ]. cbn [run]. rewrite H1. apply IH. lia.
Qed.

Lemma fetch_self : forall (P Q : code) a, fetch (Q ++ a :: P) (zlen Q) = Some a.
Proof.
  intros P Q a. unfold fetch. pose proof (zlen_nonneg _ Q) as N. replace (zlen Q <? 0) with false by (symmetry; apply Z.ltb_ge; lia).
  unfold zlen. rewrite Nat2Z.id. rewrite nth_error_app2 by lia. rewrite Nat.sub_diag. reflexivity.
Qed.
Definition noK : ktab := fun _ _ => None.
Lemma cat_self : forall (P Q R : code), cat (Q ++ P ++ R) noK (zlen Q) P.
Proof.
  induction P as [ | a P IH]; intros Q R; cbn [cat]; [exact I | ]. split.
  - destruct a; cbn [ins_at noK]; try exact I; cbn [app]; apply fetch_self.
  - specialize (IH (Q ++ [a]) R). rewrite <- app_assoc in IH. cbn [app] in *. rewrite zlen_app in IH. exact IH.
Qed.
Lemma cat_self0 : forall (P : code), cat P noK 0 P.
Proof. intros P. pose proof (cat_self P [] []) as H. cbn [app] in H. rewrite app_nil_r in H. exact H. Qed.
Lemma fetch_end : forall (P : code), fetch P (0 + zlen P) = None /\ zlen P <=? 0 + zlen P = true.
Proof.
  intros P. rewrite Z.add_0_l. split; [ | apply Z.leb_refl]. unfold fetch. destruct (zlen P <? 0); [reflexivity | ].
  apply nth_error_None. unfold zlen. lia.
Qed.

Definition outcome_of (o : @lout VS) : @halt VS :=
  match o with LRet v => HRet v | LThr _ | LAbort => HErr | _ => HEnd end.

(** What the VM does with any program whose break/continue statements are inside loops and do not leave a
    for-in or switch through a finally block. *)
Theorem vm_late : forall (p : @stmt VS) (x : st) f,
  escapes p = [] -> exits_ok (fun _ _ => 0%nat) p = true ->
  match lx f [] p x with
  | Some (o, x') => exists n, run (comp_s p) n (start x) = Halt (outcome_of o) x'
  | None => forall k, (k <= f)%nat -> exists c, run (comp_s p) k (start x) = Run c
  end.
Proof.
  intros p x f HE HX.
  assert (A := sim_s (comp_s p) p f noK (fun _ _ => 0%nat) 0 [] x []).
  specialize (A I ltac:(intros k l tg m H; discriminate) ltac:(intros k l H; rewrite HE in H; contradiction)
                ltac:(intros k l tg m H; discriminate) HX (cat_self0 _)).
  cbn [length map] in A. destruct (lx f [] p x) as [[o x'] | ].
  - assert (HALT : forall c h, reach (comp_s p) 0 (start x) c -> step (comp_s p) c = Halt h x' -> exists n, run (comp_s p) n (start x) = Halt h x').
    { intros c h [n [_ HS]] E. exists (n + 1)%nat. rewrite (run_star _ _ _ _ HS). cbn [run]. rewrite E. reflexivity. }
    destruct o; cbn [post outcome_of] in *.
    + eapply HALT; [exact A | ]. unfold step. cbn [ip cst]. destruct (fetch_end (comp_s p)) as [F1 F2]. rewrite F1, F2. reflexivity.
    + destruct A as [c [q [tg [m [_ [_ [H _]]]]]]]. discriminate.
    + destruct A as [c [q [tg [m [_ [_ [H _]]]]]]]. discriminate.
    + destruct A as [c [R E]]. eapply HALT; eassumption.
    + destruct A as [c [q [X [R [_ E]]]]]. cbn [do_throw] in E. eapply HALT; eassumption.
    + destruct A as [c [R E]]. eapply HALT; eassumption.
  - destruct A as [c' [n [Hn HS]]]. intros k Hk. eapply star_prefix; [exact HS | lia].
Qed.

(** A normal end leaves the operand stack and the try list empty. *)
Theorem vm_late_stack : forall (p : @stmt VS) (x x' : st) f,
  escapes p = [] -> exits_ok (fun _ _ => 0%nat) p = true -> lx f [] p x = Some (LNorm, x') ->
  exists n, run (comp_s p) n (start x) = Run (mkcfg (zlen (comp_s p)) [] x' []).
Proof.
  intros p x x' f HE HX HL.
  assert (A := sim_s (comp_s p) p f noK (fun _ _ => 0%nat) 0 [] x []).
  specialize (A I ltac:(intros k l tg m H; discriminate) ltac:(intros k l H; rewrite HE in H; contradiction)
                ltac:(intros k l tg m H; discriminate) HX (cat_self0 _)).
  cbn [length map] in A. rewrite HL in A. cbn [post] in A. destruct A as [n [_ HS]]. exists (n + 0)%nat.
  unfold start. rewrite (run_star _ _ _ _ HS). reflexivity.
Qed.

(** The run never gets stuck (no stack underflow, no internal error). *)
Theorem vm_not_stuck : forall (p : @stmt VS) (x : st) n,
  escapes p = [] -> exits_ok (fun _ _ => 0%nat) p = true -> run (comp_s p) n (start x) <> Stuck.
Proof.
  intros p x n HE HX H. pose proof (vm_late p x n HE HX) as A. destruct (lx n [] p x) as [[o x'] | ].
  - destruct A as [m A]. destruct (Nat.le_ge_cases n m) as [L | L].
    + replace m with (n + (m - n))%nat in A by lia. rewrite (run_more _ n _ _ Stuck H) in A by discriminate. discriminate.
    + replace n with (m + (n - m))%nat in H by lia. rewrite (run_more _ m _ _ _ A) in H by discriminate. discriminate.
  - destruct (A n (le_n n)) as [c A']. congruence.
Qed.

(* what an uncaught exception is reported as: the value thrown, the message kept, or the last one printed *)
Definition report (x : st) : option V :=
  if isundef VS (exc x) then match emsg x with Some m => Some m | None => hd_error (logs x) end else Some (exc x).
Lemma told_report : forall d x v, told d x v -> report x = Some v.
Proof.
  intros d x v [[[H1 H2] | [H1 [H2 H3]]] | [_ [[H1 H2] H3]]]; unfold report.
  - rewrite H1, H2. reflexivity.
  - rewrite H1, H2. reflexivity.
  - rewrite H1, H2. exact H3.
Qed.

Definition ends (o : @outcome VS) : @halt VS := match o with Ret v => HRet v | Thr _ => HErr | _ => HEnd end.

Theorem vm_standard : forall (p : @stmt VS) (g : nat -> V) f, well_behaved p = true ->
  let c0 := start (mkst g [] (vundef VS) None []) in
  match exec f p (mkenv g []) with
  | Some (o, E) => exists n x, run (comp_s p) n c0 = Halt (ends o) x /\ (forall y, glob x y = globals E y) /\ (forall v, o = Thr v -> report x = Some v)
  | None => forall k, (k <= f)%nat -> exists c, run (comp_s p) k c0 = Run c
  end.
Proof.
  intros p g f HW c0. unfold well_behaved in HW. apply andb_true_iff in HW. destruct HW as [HW HX]. apply andb_true_iff in HW. destruct HW as [HW HE].
  assert (EE : escapes p = []) by (destruct (escapes p); [reflexivity | discriminate]).
  set (x0 := mkst g [] (vundef VS) None []) in *.
  assert (HR : rel [] (mkenv g []) x0) by (split; [reflexivity | split; [reflexivity | split; [reflexivity | constructor]]]).
  pose proof (sync_s p f [] [] _ _ HW HR (or_introl (conj (isundef_undef VS) eq_refl))) as S.
  pose proof (vm_late p x0 f EE HX) as L. unfold agree in S.
  destruct (exec f p (mkenv g [])) as [[o E] | ]; destruct (lx f [] p x0) as [[lo x'] | ]; try contradiction; [ | exact L].
  destruct L as [n L]. exists n, x'. rewrite EE in S.
  destruct o as [ | k | k | v | v]; destruct lo; try contradiction; cbn [ends outcome_of] in *.
  - destruct S as [S1 S2]. split; [exact L | split; [exact (proj1 S1) | discriminate]].
  - destruct S as [_ [[] _]].
  - destruct S as [_ [[] _]].
  - destruct S as [S1 [S2 S3]]. subst v0. split; [exact L | split; [exact S2 | discriminate]].
  - destruct S as [S1 [S2 S3]]. split; [exact L | split; [exact (proj1 S1) | ]]. intros v' Ev. injection Ev as ->. apply (told_report []). exact S2.
  - destruct S as [S1 [S2 [S3 S4]]]. split; [exact L | split; [exact S2 | ]]. intros v' Ev. injection Ev as ->. apply (told_report []). left. exact S3.
Qed.

Theorem vm_standard_stack : forall (p : @stmt VS) (g : nat -> V) f E, well_behaved p = true ->
  exec f p (mkenv g []) = Some (Norm, E) ->
  exists n x, run (comp_s p) n (start (mkst g [] (vundef VS) None [])) = Run (mkcfg (zlen (comp_s p)) [] x []) /\ (forall y, glob x y = globals E y).
Proof.
  intros p g f E HW HX0. unfold well_behaved in HW. apply andb_true_iff in HW. destruct HW as [HW HX]. apply andb_true_iff in HW. destruct HW as [HW HE].
  assert (EE : escapes p = []) by (destruct (escapes p); [reflexivity | discriminate]).
  set (x0 := mkst g [] (vundef VS) None []) in *.
  assert (HR : rel [] (mkenv g []) x0) by (split; [reflexivity | split; [reflexivity | split; [reflexivity | constructor]]]).
  pose proof (sync_s p f [] [] _ _ HW HR (or_introl (conj (isundef_undef VS) eq_refl))) as S. unfold agree in S. rewrite HX0 in S.
  destruct (lx f [] p x0) as [[lo x'] | ] eqn:EL; [ | contradiction]. destruct lo; try contradiction.
  destruct (vm_late_stack p x0 x' f EE HX EL) as [n H]. exists n, x'. split; [exact H | exact (proj1 (proj1 S))].
Qed.

(** Expressions, in any surrounding code and on any operand stack. *)
Theorem vm_expr : forall (e : @expr VS) (before after : code) (s : list (@slot VS)) (g : nat -> V),
  ordered e = true -> no_post e = true ->
  let P := before ++ comp_e e ++ after in
  let c0 := mkcfg (zlen before) s (mkst g [] (vundef VS) None []) [] in
  match eval e (mkenv g []) with
  | inl (v, E) => exists n a x, run P n c0 = Run (mkcfg (zlen before + zlen (comp_e e)) (a :: s) x []) /\ deref x a = v /\
                    (forall y, glob x y = globals E y)
  | inr (m', E) => exists n x, run P n c0 = Halt HErr x /\ report x = Some m' /\ (forall y, glob x y = globals E y)
  end.
Proof.
  intros e before after s g HO HP P c0. set (x0 := mkst g [] (vundef VS) None []) in *.
  assert (HR : rel [] (mkenv g []) x0) by (split; [reflexivity | split; [reflexivity | split; [reflexivity | constructor]]]).
  assert (HA : asg_ok [] e = true).
  { clear. induction e; cbn [asg_ok]; auto; rewrite ?IHe, ?IHe1, ?IHe2, ?IHe3; reflexivity. }
  pose proof (eval_ok false [] e _ _ HO HA HP HR) as A. unfold agree_e in A.
  pose proof (sim_e P e noK (zlen before) s x0 [] I (cat_self _ _ _)) as B. fold c0 in B. cbn [map hold] in B.
  destruct (eval e (mkenv g [])) as [[v E] | [m' E]].
  - destruct A as [a [x [H1 [H2 [H3 H4]]]]]. rewrite H1 in B. destruct B as [n [_ HS]].
    exists (n + 0)%nat, a, x. rewrite (run_star _ _ _ _ HS). split; [reflexivity | split; [eapply slot_deref; exact H3 | exact (proj1 H2)]].
  - destruct A as [x [H1 [H2 [H3 [H4 H5]]]]]. unfold logged in H4. rewrite H1 in B. destruct B as [c [q [X [[n [_ HS]] [_ EQ]]]]]. cbn [do_throw] in EQ.
    exists (n + 1)%nat, x. rewrite (run_star _ _ _ _ HS). cbn [run]. rewrite EQ. split; [reflexivity | split; [ | exact (proj1 H2)]].
    unfold report. rewrite H3, (proj1 H4). cbn [x0 exc emsg]. rewrite isundef_undef. exact (proj2 H4).
Qed.

End Prog.
