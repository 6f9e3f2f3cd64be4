(** * The operation limit: property C38 *)
Require Import ZArith List Bool Lia.
From Verif Require Import LimitModel.
Import ListNotations.
Local Open Scope Z_scope.

Lemma wrap32_id : forall z, - 2 ^ 31 <= z < 2 ^ 31 -> wrap32 z = z.
Proof. intros z H. unfold wrap32. rewrite Z.mod_small by lia. lia. Qed.

Section Proofs.
Variable W : Type.
Variable o : oracle W.
Notation mst := (mst W).

Lemma msteps_S : forall k (s : mst), msteps o (S k) s = mstep o (msteps o k s).
Proof. induction k; intros s; [reflexivity|]. change (msteps o (S (S k)) s) with (msteps o (S k) (mstep o s)). rewrite IHk. reflexivity. Qed.

(* invariant of a limited interpreter *)
Definition linv (m : Z) (s : mst) : Prop :=
  Z.of_nat (ops s) <= m /\ (exited s = false -> maxOpCnt s = m /\ opCnt s = Z.of_nat (ops s)).
Lemma linv_step : forall m s, 0 < m < 2 ^ 31 - 1 -> linv m s -> linv m (mstep o s).
Proof.
  intros m s Hm [H1 H2]. unfold mstep. destruct (stack s) as [|[ip len|ip len n] rest]; [split; auto| |].
  - unfold loop_head, leave. destruct (Nat.leb len ip); [split; cbn; auto|].
    destruct (masked o (world s) ip); [split; cbn; auto|]. destruct (interrupted o (world s)); [split; cbn; auto|].
    destruct (exited s) eqn:E; [split; cbn; auto|]. destruct (H2 eq_refl) as [HM HC]. rewrite HM, HC.
    destruct (Z.eqb_spec m 0); [lia|]. rewrite wrap32_id by lia. cbn [negb andb].
    destruct (Z.ltb_spec m (Z.of_nat (ops s) + 1)).
    + split; cbn [ops exited]; [lia|discriminate].
    + split; cbn [ops exited maxOpCnt opCnt]; [lia|]. intros _. lia.
  - unfold in_op, leave. destruct (native o (world s) n) as [w ok c nx|w l|w].
    + destruct ok; [split; cbn; auto|]. destruct (exited s) eqn:E; [split; cbn; auto; congruence|]. destruct c; split; cbn; auto; congruence.
    + destruct (exited s) eqn:E; split; cbn; auto; congruence.
    + split; cbn; auto. discriminate.
Qed.
Lemma linv_steps : forall m k s, 0 < m < 2 ^ 31 - 1 -> linv m s -> linv m (msteps o k s).
Proof. induction k; intros s Hm H; cbn [msteps]; auto. apply IHk; auto. apply linv_step; auto. Qed.
Lemma linv_start : forall m w len, 0 < m < 2 ^ 31 - 1 -> linv m (mstart w m len).
Proof. intros. split; cbn; auto. lia. Qed.

(** However the program behaves - whatever its operations do, however evaluations are nested - no more
    than [m] operations are ever executed. *)
Theorem op_limit_respected : forall w m len k, 0 < m < 2 ^ 31 - 1 ->
  Z.of_nat (ops (msteps o k (mstart w m len))) <= m.
Proof. intros w m len k Hm. apply (linv_steps m k (mstart w m len) Hm (linv_start m w len Hm)). Qed.

(** Once the limit has been exceeded (or the program has called exit()), no operation is executed any more,
    and every evaluation in progress, and every new one, ends with an error. *)
Lemma exited_step : forall (s : mst), exited s = true -> exited (mstep o s) = true /\ ops (mstep o s) = ops s /\
  ((length (stack (mstep o s)) <= length (stack s))%nat) /\
  ((length (stack (mstep o s)) < length (stack s))%nat -> rc (mstep o s) = false).
Proof.
  intros s E. unfold mstep. destruct (stack s) as [|[ip len|ip len n] rest] eqn:S; [rewrite S; cbn; repeat split; auto; lia| |].
  - unfold loop_head, leave. rewrite E. destruct (Nat.leb len ip); [cbn; repeat split; auto|].
    destruct (masked o (world s) ip); [cbn; repeat split; auto; lia|]. destruct (interrupted o (world s)); cbn; repeat split; auto.
  - unfold in_op, leave. rewrite E. destruct (native o (world s) n) as [w ok c nx|w l|w].
    + destruct ok; cbn; rewrite ?E; repeat split; auto; lia.
    + cbn; repeat split; auto; lia.
    + cbn; repeat split; auto; lia.
Qed.
Theorem after_the_limit : forall (s : mst) k, exited s = true ->
  let s1 := msteps o k s in let s2 := mstep o s1 in
  ops s2 = ops s /\ (length (stack s2) <= length (stack s1))%nat /\
  ((length (stack s2) < length (stack s1))%nat -> rc s2 = false).
Proof.
  intros s k E. cbv zeta.
  assert (H : exited (msteps o k s) = true /\ ops (msteps o k s) = ops s).
  { revert s E. induction k; intros s E; cbn [msteps]; auto. destruct (exited_step s E) as (A & B & _).
    destruct (IHk _ A) as [C D]. split; auto. congruence. }
  destruct H as [H1 H2]. destruct (exited_step _ H1) as (A & B & C & D). repeat split; auto. congruence.
Qed.

(** Every evaluation ends: if the native code of one operation makes at most [B] steps and no code is
    longer than [L], then after a number of steps that depends only on the limit, [B] and [L] the whole
    evaluation is over.  *)
Variables B L : nat.
Definition native_ends : Prop := forall w n, (B <= n)%nat -> exists w' ok c nx, native o w n = NFinish w' ok c nx.
Definition code_short : Prop := forall w n w' l, native o w n = NInvoke w' l -> (l <= L)%nat.

Definition opw : nat := (B * (L + 3) + (L + 2))%nat.
Definition weight (x : mode) : nat :=
  match x with AtLoop ip _ => (L - ip) + 1 | InOp _ _ n => (B - n) * (L + 3) + (L + 2) end%nat.
Definition wsum (l : list mode) : nat := fold_right (fun x a => (weight x + a)%nat) 0%nat l.
Definition phi (m : Z) (s : mst) : nat := ((Z.to_nat m - ops s) * opw + wsum (stack s))%nat.
Definition lens_ok (l : list mode) : Prop := Forall (fun x => match x with AtLoop _ n | InOp _ n _ => (n <= L)%nat end) l.

Ltac fin := repeat match goal with |- context [(?a * ?b)%nat] => generalize (a * b)%nat; intro end; lia.
Lemma phi_step : forall m s, native_ends -> code_short -> 0 < m < 2 ^ 31 - 1 -> linv m s -> lens_ok (stack s) -> stack s <> [] ->
  (phi m (mstep o s) < phi m s)%nat /\ lens_ok (stack (mstep o s)).
Proof.
  intros m s NE CS Hm I LO NN. pose proof (linv_step m s Hm I) as I'. unfold mstep in *.
  destruct (stack s) as [|[ip len|ip len n] rest] eqn:S; [congruence| |]; clear NN.
  - inversion LO as [|? ? L1 L2]; subst. unfold loop_head, leave, phi in *. rewrite S. cbn [wsum fold_right weight]. fold (wsum rest).
    destruct (Nat.leb_spec len ip); [cbn [ops stack]; split; [lia|auto]|].
    destruct (masked o (world s) ip) as [k|].
    { cbn [ops stack wsum fold_right weight]. fold (wsum rest). split; [lia|]. constructor; auto. }
    destruct (interrupted o (world s)); [cbn [ops stack]; split; [lia|auto]|].
    destruct (exited s); [cbn [ops stack]; split; [lia|auto]|].
    destruct (_ && _); [cbn [ops stack]; split; [lia|auto]|].
    cbn [ops stack wsum fold_right weight]. fold (wsum rest). rewrite Nat.sub_0_r. fold opw.
    destruct I' as [I1 _]. cbn [ops] in I1. split; [|constructor; auto].
    replace (Z.to_nat m - ops s)%nat with (1 + (Z.to_nat m - Datatypes.S (ops s)))%nat by lia.
    rewrite Nat.mul_add_distr_r, Nat.mul_1_l. generalize ((Z.to_nat m - Datatypes.S (ops s)) * opw)%nat. intros. lia.
  - inversion LO as [|? ? L1 L2]; subst. unfold in_op, leave, phi in *. rewrite S. cbn [wsum fold_right weight]. fold (wsum rest).
    destruct (native o (world s) n) as [w ok c nx|w l|w] eqn:N.
    + destruct ok; [cbn [ops stack wsum fold_right weight]; fold (wsum rest); split; [fin|constructor; auto]|].
      destruct (exited s); [cbn [ops stack]; split; [fin|auto]|].
      destruct c; cbn [ops stack wsum fold_right weight]; fold (wsum rest); split; try fin; auto. constructor; auto.
    + assert (n < B)%nat. { destruct (Nat.ltb_spec n B); auto. destruct (NE (world s) n) as (? & ? & ? & ? & X); auto. congruence. }
      replace (B - n)%nat with (1 + (B - Datatypes.S n))%nat by lia. rewrite Nat.mul_add_distr_r, Nat.mul_1_l.
      destruct (exited s); cbn [ops stack wsum fold_right weight]; fold (wsum rest).
      * split; [fin|]. constructor; auto.
      * split; [fin|]. constructor; [eapply CS; eauto|]. constructor; auto.
    + assert (n < B)%nat. { destruct (Nat.ltb_spec n B); auto. destruct (NE (world s) n) as (? & ? & ? & ? & X); auto. congruence. }
      replace (B - n)%nat with (1 + (B - Datatypes.S n))%nat by lia. rewrite Nat.mul_add_distr_r, Nat.mul_1_l.
      cbn [ops stack wsum fold_right weight]; fold (wsum rest). split; [fin|]. constructor; auto.
Qed.
Lemma done_stays : forall k (s : mst), stack s = [] -> msteps o k s = s.
Proof. induction k; intros s H; cbn [msteps]; auto. unfold mstep at 1. rewrite H. auto. Qed.

Theorem every_evaluation_ends : forall w m len, native_ends -> code_short -> 0 < m < 2 ^ 31 - 1 -> (len <= L)%nat ->
  let bound := (Z.to_nat m * (B * (L + 3) + (L + 2)) + (L + 1))%nat in
  stack (msteps o bound (mstart w m len)) = [].
Proof.
  intros w m len NE CS Hm HL bound.
  assert (G : forall k s, linv m s -> lens_ok (stack s) -> (phi m s <= k)%nat -> stack (msteps o k s) = []).
  { induction k; intros s I LO HP; destruct (stack s) as [|x r] eqn:S.
    - rewrite done_stays; auto.
    - cbn [msteps]. exfalso. unfold phi in HP. rewrite S in HP. cbn [wsum fold_right] in HP. destruct x; cbn [weight] in HP; lia.
    - rewrite done_stays; auto.
    - cbn [msteps]. rewrite <- S in LO. destruct (phi_step m s NE CS Hm I LO) as [P1 P2]; [congruence|].
      apply IHk; auto; [apply linv_step; auto|lia]. }
  apply G.
  - apply linv_start; auto.
  - cbn. constructor; auto.
  - unfold phi. cbn [mstart ops stack wsum fold_right weight]. subst bound. unfold opw. lia.
Qed.

(** The limit changes nothing for programs that stay below it: as long as an interpreter without limit has
    executed at most [m] operations, one with limit [m] is in the same state. *)
Definition forget (s : mst) : mst := mkm (world s) (opCnt s) 0 (exited s) (stack s) (ops s) (rc s).
Lemma ops_mono : forall (s : mst) k, (ops s <= ops (msteps o k s))%nat.
Proof.
  intros s k. revert s. induction k; intros s; cbn [msteps]; auto. eapply Nat.le_trans; [|apply IHk]. unfold mstep.
  destruct (stack s) as [|[ip len|ip len n] rest]; auto.
  - unfold loop_head, leave. destruct (Nat.leb len ip); cbn; auto. destruct (masked _ _ _); cbn; auto.
    destruct (interrupted _ _); cbn; auto. destruct (exited s); cbn; auto. destruct (_ && _); cbn; auto.
  - unfold in_op, leave. destruct (native o (world s) n) as [w ok c nx|w l|w]; [destruct ok; cbn; auto|..]; cbn; auto;
    destruct (exited s); cbn; auto; destruct c; cbn; auto.
Qed.
Lemma forget_step : forall m s, 0 < m < 2 ^ 31 - 1 -> linv m s -> Z.of_nat (ops (mstep o (forget s))) <= m ->
  mstep o (forget s) = forget (mstep o s).
Proof.
  intros m s Hm [I1 I2]. unfold mstep. cbn [stack forget]. destruct (stack s) as [|[ip len|ip len n] rest] eqn:ST; auto.
  - unfold forget. unfold loop_head, leave. cbn [world opCnt maxOpCnt exited ops rc stack]. destruct (Nat.leb len ip); auto. destruct (masked _ _ _); auto.
    destruct (interrupted _ _); auto. destruct (exited s) eqn:E; auto. destruct (I2 eq_refl) as [HM HC].
    cbn [Z.eqb negb andb ops]. intros H. rewrite HM, HC. rewrite wrap32_id by lia.
    destruct (Z.eqb_spec m 0); [lia|]. destruct (Z.ltb_spec m (Z.of_nat (ops s) + 1)); [lia|]. reflexivity.
  - intros _. unfold forget. unfold in_op, leave. cbn [world opCnt maxOpCnt exited ops rc stack].
    destruct (native o (world s) n) as [w ok c nx|w l|w]; [destruct ok; auto|..]; auto; destruct (exited s); auto. destruct c; auto.
Qed.
Theorem limit_not_reached : forall w m len k, 0 < m < 2 ^ 31 - 1 ->
  Z.of_nat (ops (msteps o k (mstart w 0 len))) <= m ->
  let a := msteps o k (mstart w 0 len) in let b := msteps o k (mstart w m len) in
  world a = world b /\ exited a = exited b /\ stack a = stack b /\ ops a = ops b /\ rc a = rc b.
Proof.
  intros w m len k Hm H. cbv zeta.
  assert (G : forall k s, linv m s -> Z.of_nat (ops (msteps o k (forget s))) <= m -> msteps o k (forget s) = forget (msteps o k s)).
  { clear H k. induction k; intros s I H; cbn [msteps] in *; auto.
    pose proof (ops_mono (mstep o (forget s)) k). assert (E : mstep o (forget s) = forget (mstep o s)) by (apply (forget_step m); auto; lia).
    rewrite E in *. apply IHk; [apply linv_step; auto|auto]. }
  change (mstart w 0 len) with (forget (mstart w m len)) in *. rewrite (G k (mstart w m len)) by (auto using linv_start). repeat split; reflexivity.
Qed.
End Proofs.

(** A program that loops for ever (its one operation jumps back to itself) and a native function that keeps
    calling back: the hypotheses are met, and the limit stops it with an error. *)
Definition loop_oracle : oracle unit :=
  mkor (fun _ _ => None) (fun _ => false) (fun _ n => if Nat.ltb n 2 then NInvoke tt 3 else NFinish tt true None 0) (fun w _ => w).
Example loop_meets : native_ends unit loop_oracle 2 /\ code_short unit loop_oracle 3.
Proof.
  split.
  - intros w n H. destruct w. cbn [loop_oracle native]. destruct (Nat.ltb_spec n 2); [lia|]. repeat eexists.
  - intros w n w' l H. cbn [loop_oracle native] in H. destruct (Nat.ltb n 2); [injection H as <- <-; lia|discriminate].
Qed.
Example loop_stopped : let s := msteps loop_oracle 1000 (mstart tt 20 3) in stack s = [] /\ ops s = 20%nat /\ exited s = true /\ rc s = false.
Proof. vm_compute. auto. Qed.
(* an error caught by a handler: the limit is not caught *)
Definition catch_oracle : oracle unit :=
  mkor (fun _ _ => None) (fun _ => false) (fun _ n => NFinish tt false (Some 0%nat) 0) (fun w _ => w).
Example catch_stopped : let s := msteps catch_oracle 1000 (mstart tt 20 3) in stack s = [] /\ ops s = 20%nat /\ rc s = false.
Proof. vm_compute. auto. Qed.

(** The limit 2^31-1 does not work: the counter is an int and wraps round before it can exceed it. *)
Theorem int_max_limit_refuted : forall n : nat, exists k,
  ops (msteps catch_oracle k (mstart tt (2 ^ 31 - 1) 3)) = n.
Proof.
  intros n. exists (2 * n)%nat.
  assert (G : forall n s, maxOpCnt s = 2 ^ 31 - 1 -> exited s = false -> stack s = [AtLoop 0 3] -> ops (msteps catch_oracle (2 * n) s) = (ops s + n)%nat).
  { clear n. induction n; intros s HM HE HS; [cbn; lia|]. replace (2 * S n)%nat with (S (S (2 * n))) by lia.
    assert (E : mstep catch_oracle (mstep catch_oracle s) =
                mkm tt (wrap32 (opCnt s + 1)) (2 ^ 31 - 1) false [AtLoop 0 3] (S (ops s)) (rc s)).
    { unfold mstep at 2. rewrite HS. unfold loop_head. cbn [Nat.leb]. cbn [catch_oracle masked interrupted]. rewrite HE, HM.
      change (2 ^ 31 - 1 =? 0) with false. cbn [negb andb].
      assert (wrap32 (opCnt s + 1) <= 2 ^ 31 - 1) as Hw. { unfold wrap32. pose proof (Z.mod_pos_bound (opCnt s + 1 + 2 ^ 31) (2 ^ 32) ltac:(lia)). lia. }
      destruct (Z.ltb_spec (2 ^ 31 - 1) (wrap32 (opCnt s + 1))); [lia|]. reflexivity. }
    change (msteps catch_oracle (S (S (2 * n))) s) with (msteps catch_oracle (2 * n) (mstep catch_oracle (mstep catch_oracle s))).
    rewrite E, IHn by reflexivity. cbn [ops]. lia. }
  rewrite G by reflexivity. reflexivity.
Qed.

Print Assumptions op_limit_respected.
Print Assumptions after_the_limit.
Print Assumptions every_evaluation_ends.
Print Assumptions limit_not_reached.
Print Assumptions int_max_limit_refuted.
