(** * Properties C34-C37 and C48: compiled programs compute what the source means. *)
Require Import ZArith List Bool Lia.
From Coq Require Import SpecFloat.
From Verif Require Import VmModel VmSpec VmProofs VmProofs8 VmProofs9.
Import ListNotations.
Local Open Scope Z_scope.

Section Claims.
Context {VS : vsys}.
Notation V := (val VS).
Notation code := (list (@instr VS)).

(* the initial state: global variables [g], no pending exception *)
Definition init (g : nat -> V) : state := mkst g [] (vundef VS) None [].
(* what the interpreter reports for an uncaught exception: the value thrown, the message kept for a catch
   block, or the last message printed *)
Definition reports (st : state) : option V :=
  if isundef VS (exc st) then match emsg st with Some m => Some m | None => hd_error (logs st) end else Some (exc st).
Definition env0 (g : nat -> V) : env := mkenv g [].

(** C34.  The code of an expression, wherever it stands in the program and whatever is on the operand stack,
    runs to its end leaving exactly one more slot, which stands for the value of the expression, with the
    variables as the expression leaves them; an error in it ends the run with its message. *)
Theorem expression_code_partial : forall (e : @expr VS) (before after : code) (s : list slot) (g : nat -> V),
  ordered e = true -> no_post e = true ->
  let P := before ++ comp_e e ++ after in
  let c0 := mkcfg (zlen before) s (init g) [] in
  match eval e (env0 g) with
  | inl (v, E) =>
      exists n a st, run P n c0 = Run (mkcfg (zlen before + zlen (comp_e e)) (a :: s) st []) /\
                     deref st a = v /\ forall x, glob st x = globals E x
  | inr (err, E) =>
      exists n st, run P n c0 = Halt HErr st /\
                   reports st = Some err /\ forall x, glob st x = globals E x
  end.
Proof. intros. apply vm_expr; assumption. Qed.

(* how the VM reports the end of a program *)
Definition reported (o : @outcome VS) : @halt VS :=
  match o with Ret v => HRet v | Thr _ => HErr | _ => HEnd end.

(** C35 and C37.  A well-behaved program that means [(o, E)] halts with that outcome and these variables. *)
Theorem program_result_partial : forall (p : @stmt VS) (g : nat -> V) f o E,
  well_behaved p = true -> exec f p (env0 g) = Some (o, E) ->
  exists n st, run (comp_s p) n (start (init g)) = Halt (reported o) st /\
    (forall x, glob st x = globals E x) /\
    (forall v, o = Thr v -> reports st = Some v).
Proof. intros p g f o E HW HX. pose proof (vm_standard p g f HW) as H. cbn zeta in H. unfold env0 in HX. rewrite HX in H. exact H. Qed.

(** ... with the operand stack and the list of active try statements empty again after a normal end. *)
Theorem normal_end_stack_partial : forall (p : @stmt VS) (g : nat -> V) f E,
  well_behaved p = true -> exec f p (env0 g) = Some (Norm, E) ->
  exists n st, run (comp_s p) n (start (init g)) = Run (mkcfg (zlen (comp_s p)) [] st []) /\ forall x, glob st x = globals E x.
Proof. intros p g f E HW HX. eapply vm_standard_stack; eassumption. Qed.

(** ... and the VM halts if and only if the program terminates. *)
Theorem program_halts_iff_terminates_partial : forall (p : @stmt VS) (g : nat -> V),
  well_behaved p = true ->
  ((exists n h st, run (comp_s p) n (start (init g)) = Halt h st) <-> (exists f o E, exec f p (env0 g) = Some (o, E))).
Proof.
  intros p g HW. split.
  - intros [n [h [st H]]]. exists n. pose proof (vm_standard p g n HW) as A. cbn zeta in A. unfold env0.
    destruct (exec n p (mkenv g [])) as [[o E] | ]; [exists o, E; reflexivity | ].
    destruct (A n (le_n n)) as [c HC]. unfold init in H. congruence.
  - intros [f [o [E H]]]. destruct (program_result_partial p g f o E HW H) as [n [st [H1 _]]]. exists n, (reported o), st. exact H1.
Qed.

(* a program that does not terminate keeps the VM running *)
Theorem divergence_partial : forall (p : @stmt VS) (g : nat -> V),
  well_behaved p = true -> (forall f, exec f p (env0 g) = None) ->
  forall n, exists c, run (comp_s p) n (start (init g)) = Run c.
Proof. intros p g HW H n. pose proof (vm_standard p g n HW) as A. cbn zeta in A. unfold env0 in H. rewrite H in A. apply A. apply le_n. Qed.

(** C48.  Whatever the program does, the interpreter loop never pops from an empty stack, never finds a slot
    of the wrong kind and never meets an inconsistent try list. *)
Theorem never_stuck : forall (p : @stmt VS) (st : state) n,
  escapes p = [] -> exits_ok (fun _ _ => 0%nat) p = true -> run (comp_s p) n (start st) <> Stuck.
Proof. intros. apply vm_not_stuck; assumption. Qed.
End Claims.

(** ** A concrete system of values: undefined, integers, the empty string (CE) and an error message (CS); strict mode, in which operators
    applied to undefined fail. *)
Inductive cv := CU | CN (z : Z) | CE | CS.
Definition ctruthy (v : cv) : bool := match v with CN z => negb (z =? 0) | _ => false end.
Definition ceq (a b : cv) : bool := match a, b with CU, CU => true | CE, CE => true | CS, CS => true | CN x, CN y => x =? y | _, _ => false end.
Definition cbool (b : bool) : cv := CN (if b then 1 else 0).
Definition cbin (o : bop) (a b : cv) : cv + cv :=
  match o with
  | Equ => inl (cbool (ceq a b)) | Neq => inl (cbool (negb (ceq a b)))
  | StrictEq => inl (cbool (ceq a b)) | StrictNeq => inl (cbool (negb (ceq a b)))
  | _ =>
    match a, b with
    | CN x, CN y =>
        inl (match o with
             | Add => CN (x + y) | Sub => CN (x - y) | Mul => CN (x * y)
             | Less => cbool (x <? y) | Greater => cbool (y <? x) | _ => CN 0
             end)
    | _, _ => inr CS
    end
  end.
Definition cun (u : uop) (a : cv) : cv + cv :=
  match u with Not => inl (cbool (negb (ctruthy a))) | Neg => match a with CN z => inl (CN (- z)) | _ => inr CS end | _ => inl CS end.
Definition ckeys (o : bool) (a : cv) : list cv + cv :=
  match a with CN z => inl (map (fun n => CN (Z.of_nat n)) (seq 0 (Z.to_nat z))) | _ => inl [] end.
Definition cstep (i : bool) (a : cv) : cv := match a with CN z => CN (if i then z + 1 else z - 1) | _ => CN 0 end.
Definition CV : vsys.
Proof.
  refine (mkvsys cv ctruthy CU (fun v => ceq v CU) cbool CE cbin cun (fun v => v) (fun _ => None) cstep ckeys
    (fun o => match o with Equ | Neq | StrictEq | StrictNeq => true | _ => false end)
    (fun u => match u with Not => true | _ => false end) true true _ _ _ _ _ _ _ _ _ _ _ _).
  - intros []; reflexivity.
  - reflexivity.
  - reflexivity.
  - intros [] a b H; try discriminate H; eexists; reflexivity.
  - intros [] a H; try discriminate H; eexists; reflexivity.
  - reflexivity.
  - intros o [] _; eexists; reflexivity.
  - intros [] [] []; reflexivity.
  - intros [] []; reflexivity.
  - intros [] []; reflexivity.
  - discriminate.
  - intros o [] m H; discriminate H.
Defined.

Definition g0 : nat -> val CV := fun _ => CN 0.
(* final outcome and the values of variables 0..2, by the standard semantics and by the VM *)
Inductive final := Done | Returned (v : option cv) | Threw (v : cv) | Other.
Definition means (p : @stmt CV) : option (final * list cv) :=
  match exec 50 p (env0 g0) with
  | Some (o, E) => Some (match o with Norm => Done | Ret v => Returned v | Thr v => Threw v | _ => Other end, map (globals E) [0; 1; 2]%nat)
  | None => None
  end.
Definition vm_does (p : @stmt CV) : option (final * list cv) :=
  match run (comp_s p) 500 (start (init g0)) with
  | Halt h st => Some (match h with HEnd => Done | HRet v => Returned v | HErr => Threw (match @reports CV st with Some v => v | None => CU end) end,
                       map (glob st) [0; 1; 2]%nat)
  | _ => None
  end.

Notation con z := (@ECon CV (CN z)).
Notation var x := (@EVar CV x).
Notation asg x e := (SExpr (@EAsg CV x e)).
Infix ";;" := SSeq (at level 60, right associativity).

(** The hypotheses are met by non-trivial programs. *)
(* for (x0 = 0; x0 < 10; x0++) { if (x0 === 7) break; switch (x0) { case 3: continue; case 5: x1 += 100;
   default: x1 += x0; } for (x2 in 3) { if (x2 === 1) continue; x1 += 1; } } *)
Definition prog1 : @stmt CV :=
  SFor None (asg 0%nat (con 0)) (Some (EBin Less (var 0%nat) (con 10))) (Some (EInc true true 0%nat))
    (SIf (EBin StrictEq (var 0%nat) (con 7)) (SBreak None) ;;
     SSwitch None (var 0%nat)
       (CCons (Some (con 3)) (SContinue None)
       (CCons (Some (con 5)) (SExpr (EOpAsg Add 1%nat (con 100)))
       (CCons None (SExpr (EOpAsg Add 1%nat (var 0%nat))) CNil))) ;;
     SForIn None false 2%nat (con 3) (SIf (EBin StrictEq (var 2%nat) (con 1)) (SContinue None) ;; SExpr (EOpAsg Add 1%nat (con 1)))).
Example prog1_ok : well_behaved prog1 = true /\ means prog1 = Some (Done, [CN 7; CN 130; CN 2]) /\ vm_does prog1 = Some (Done, [CN 7; CN 130; CN 2]).
Proof. repeat split; vm_compute; reflexivity. Qed.
(* L3: while (1) { try { try { x0 = undefined - 1 } finally { x1 = 5 } }
     catch (e4) { x0 = e4; try { throw 3 } catch (e5) { x2 = e5; break L3 } finally { x1 = x1 === 5 } } }  throw x2 *)
Definition prog2 : @stmt CV :=
  SWhile (Some 3%nat) (con 1)
    (STry (STry (asg 0%nat (EBin Sub (@ECon CV CU) (con 1))) None (Some (asg 1%nat (con 5))))
          (Some (4%nat, asg 0%nat (var 4%nat) ;;
             STry (SThrow (con 3)) (Some (5%nat, asg 2%nat (var 5%nat) ;; SBreak (Some 3%nat)))
                  (Some (asg 1%nat (EBin StrictEq (var 1%nat) (con 5))))))
          None) ;;
  SThrow (EBin Add (var 2%nat) (con 0)).
Example prog2_ok : well_behaved prog2 = true /\ means prog2 = Some (Threw (CN 3), [CS; CN 1; CN 3]) /\ vm_does prog2 = Some (Threw (CN 3), [CS; CN 1; CN 3]).
Proof. repeat split; vm_compute; reflexivity. Qed.
Example expr_ok : let e := ECond (EAnd (var 0%nat) (EAsg 1%nat (con 2))) (con 1) (EOpAsg Sub 2%nat (EBin Mul (EInc true false 1%nat) (EAsg 0%nat (con 7)))) in
  ordered e = true /\ no_post e = true /\ exists E, eval e (env0 g0) = inl (CN (-7), E).
Proof. cbn. repeat split. eexists. reflexivity. Qed.
(* an error in the catch block of an outermost try is reported *)
Example prog3_ok : let p := STry (SThrow (con 1)) (Some (3%nat, asg 1%nat (EBin Sub (@ECon CV CU) (var 3%nat)))) (Some (asg 0%nat (con 4))) in
  well_behaved p = true /\ means p = Some (Threw CS, [CN 4; CN 0; CN 0]) /\ vm_does p = Some (Threw CS, [CN 4; CN 0; CN 0]).
Proof. repeat split; vm_compute; reflexivity. Qed.
(* not well-behaved, but never stuck *)
Example stuck_free_ex : let p := STry (SReturn (Some (con 1))) (Some (3%nat, SThrow (var 9%nat))) (Some (SThrow (con 2))) in
  @escapes CV p = [] /\ exits_ok (fun _ _ => 0%nat) p = true.
Proof. split; reflexivity. Qed.

(** ** What does not hold *)

(** C36: x0 = 1; x1 = x0 + (x0 = 5) should be 1 + 5; the VM reads the left operand after the assignment. *)
Theorem left_to_right_refuted :
  let p := asg 0%nat (con 1) ;; asg 1%nat (EBin Add (var 0%nat) (EAsg 0%nat (con 5))) in
  means p = Some (Done, [CN 5; CN 6; CN 0]) /\ vm_does p = Some (Done, [CN 5; CN 10; CN 0]).
Proof. repeat split; vm_compute; reflexivity. Qed.
(** likewise x0 += (x0 = 5) *)
Theorem op_assign_refuted :
  let p := asg 0%nat (con 1) ;; SExpr (EOpAsg Add 0%nat (EAsg 0%nat (con 5))) in
  means p = Some (Done, [CN 6; CN 0; CN 0]) /\ vm_does p = Some (Done, [CN 10; CN 0; CN 0]).
Proof. repeat split; vm_compute; reflexivity. Qed.

(** C37: return in a try block skips the finally block. *)
Theorem return_skips_finally_refuted :
  let p := STry (SReturn (Some (con 1))) None (Some (asg 0%nat (con 7))) in
  means p = Some (Returned (Some (CN 1)), [CN 7; CN 0; CN 0]) /\ vm_does p = Some (Returned (Some (CN 1)), [CN 0; CN 0; CN 0]).
Proof. repeat split; vm_compute; reflexivity. Qed.
(** a throw statement in the catch block of an outermost try skips its finally block *)
Theorem throw_in_catch_skips_finally_refuted :
  let p := STry (SThrow (con 1)) (Some (3%nat, SThrow (con 2))) (Some (asg 0%nat (con 7))) in
  means p = Some (Threw (CN 2), [CN 7; CN 0; CN 0]) /\ vm_does p = Some (Threw (CN 2), [CN 0; CN 0; CN 0]).
Proof. repeat split; vm_compute; reflexivity. Qed.
(** an error in a finally block should replace the exception being thrown; the catch gets the old one *)
Theorem error_in_finally_refuted :
  let p := STry (STry (SThrow (con 1)) None (Some (asg 1%nat (EBin Sub (@ECon CV CU) (con 1)))))
                (Some (3%nat, asg 0%nat (var 3%nat))) None in
  means p = Some (Done, [CS; CN 0; CN 0]) /\ vm_does p = Some (Done, [CN 1; CN 0; CN 0]).
Proof. repeat split; vm_compute; reflexivity. Qed.
(** an exception discarded by break in finally is delivered to a later, unrelated catch *)
Theorem discarded_exception_refuted :
  let p := SWhile None (con 1) (STry (SThrow (con 1)) None (Some (SBreak None))) ;;
           STry (asg 1%nat (EBin Sub (@ECon CV CU) (con 1))) (Some (3%nat, asg 0%nat (var 3%nat))) None in
  means p = Some (Done, [CS; CN 0; CN 0]) /\ vm_does p = Some (Done, [CN 1; CN 0; CN 0]).
Proof. repeat split; vm_compute; reflexivity. Qed.
(** throw undefined: the catch gets the empty string instead *)
Theorem throw_undefined_refuted :
  let p := STry (SThrow (@ECon CV CU)) (Some (3%nat, asg 0%nat (var 3%nat))) None in
  means p = Some (Done, [CU; CN 0; CN 0]) /\ vm_does p = Some (Done, [CE; CN 0; CN 0]).
Proof. repeat split; vm_compute; reflexivity. Qed.
(** an error in the catch block of a try inside another try: the outer catch should get its message, but gets
    the empty string *)
Theorem error_in_inner_catch_refuted :
  let p := STry (STry (SThrow (con 1)) (Some (3%nat, asg 1%nat (EBin Sub (@ECon CV CU) (con 1)))) None)
                (Some (4%nat, asg 0%nat (var 4%nat))) None in
  means p = Some (Done, [CS; CN 0; CN 0]) /\ vm_does p = Some (Done, [CE; CN 0; CN 0]).
Proof. repeat split; vm_compute; reflexivity. Qed.
(** C48: continue out of a for-in through a finally block that throws, caught inside the for-in: the loop finds
    its iterator gone ("next: toq not a iter") *)
Theorem jump_through_finally_refuted :
  let p := SWhile (Some 9%nat) (con 1)
             (SForIn None false 0%nat (con 2)
                (STry (STry (SContinue (Some 9%nat)) None (Some (SThrow (con 3)))) (Some (3%nat, SSkip)) None)) in
  @escapes CV p = [] /\ match run (comp_s p) 100 (start (init g0)) with Stuck => True | _ => False end.
Proof. split; [reflexivity | vm_compute; exact I]. Qed.

(** x++ on IEEE doubles: the old value is recomputed as (x + 1) - 1, which differs from x for x = 2^53. *)
Definition fadd (a b : spec_float) : spec_float := SFadd 53 1024 a b.
Definition fone (i : bool) : spec_float := S754_finite (negb i) 4503599627370496 (-52).
Definition fval := option spec_float.
Definition fundef (v : fval) : bool := match v with None => true | _ => false end.
Definition ftruthy (v : fval) : bool := match v with Some (S754_zero b) => b | _ => true end.
Definition fstep (i : bool) (v : fval) : fval := Some (fadd (match v with Some f => f | None => S754_nan end) (fone i)).
Definition FV : vsys.
Proof.
  refine (mkvsys fval ftruthy None fundef (fun b => Some (S754_zero b)) (Some S754_nan)
    (fun _ _ _ => inl (Some S754_nan)) (fun _ _ => inl (Some S754_nan)) (fun v => v) (fun _ => None) fstep (fun _ _ => inl [])
    (fun _ => true) (fun _ => true) true true _ _ _ _ _ _ _ _ _ _ _ _); try reflexivity.
  - intros. eexists. reflexivity.
  - intros. eexists. reflexivity.
  - intros. eexists. reflexivity.
  - discriminate.
  - discriminate.
Defined.
Definition two53 : spec_float := S754_finite false 4503599627370496 1.
Theorem post_increment_refuted :
  let e := @EInc FV true true 0%nat in
  let g := fun _ : nat => Some two53 in
  (match eval e (@env0 FV g) with inl (v, _) => Some v | inr _ => None end) = Some (Some two53) /\
  (match run (comp_e e) 2 (start (@init FV g)) with
   | Run c => match stk c with [a] => Some (deref (cst c) a) | _ => None end
   | _ => None
   end) = Some (Some (S754_finite false 9007199254740991 0)).
Proof. split; vm_compute; reflexivity. Qed.

Print Assumptions expression_code_partial.
Print Assumptions program_result_partial.
Print Assumptions program_halts_iff_terminates_partial.
Print Assumptions divergence_partial.
Print Assumptions never_stuck.
Print Assumptions post_increment_refuted.
Print Assumptions jump_through_finally_refuted.
