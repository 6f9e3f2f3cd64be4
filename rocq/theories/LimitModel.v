(** * Model of the operation limit (maxOpCnt) of the interpreter loop.

    One interpreter: the counters that all evaluations share, and the stack of the evaluations
    (calls of jsi_evalcode) in progress.  What the operations and the native functions do is left
    completely open: an oracle decides, from an arbitrary world [W], where a frame goes on, whether
    an operation fails and whether that is caught, which further evaluations native code starts
    (any number, in any nesting), whether the program calls exit(), whether it was interrupted and
    which instructions are masked out.

    Not modelled: native code that never returns; other interpreters (each has its own counter);
    the busyCallback of a parent interpreter. *)
Require Import ZArith List Bool.
Import ListNotations.
Local Open Scope Z_scope.

(* C int arithmetic that wraps round (gcc -fwrapv; formally undefined) *)
Definition wrap32 (z : Z) : Z := (z + 2 ^ 31) mod 2 ^ 32 - 2 ^ 31.

Section Limit.
Variable W : Type.

(* what native code does next *)
Inductive nact :=
| NFinish (w : W) (ok : bool) (catch : option nat) (next : nat)
    (* the operation ends; on failure [catch] is the handler's position, if there is one *)
| NInvoke (w : W) (len : nat)     (* Jsi_FunctionInvoke, eval, ...: jsi_evalcode on code of that length *)
| NExit (w : W).                  (* exit(): interp->exited = 1, jsiCmds.c *)

Record oracle := mkor {
  masked : W -> nat -> option nat;      (* jsiEval.c 1138-1153: log statement disabled, number of further instructions skipped *)
  interrupted : W -> bool;              (* jsiEval.c 1154-1163 *)
  native : W -> nat -> nact;            (* second argument: native steps made so far in this operation *)
  returned : W -> bool -> W             (* an evaluation started by native code has returned (true = JSI_OK) *)
}.

(* an evaluation: at the head of the loop of jsiEvalCodeSub, or inside an operation *)
Inductive mode := AtLoop (ip len : nat) | InOp (ip len n : nat).

(* [ops] counts the operations executed (ghost), [rc] the result of the last evaluation that ended *)
Record mst := mkm { world : W; opCnt : Z; maxOpCnt : Z; exited : bool; stack : list mode; ops : nat; rc : bool }.

(* the end of jsi_evalcode, jsiEval.c 2210-2231: rc = JSI_ERROR if exited *)
Definition leave (o : oracle) (s : mst) (r : bool) (rest : list mode) : mst :=
  let r := r && negb (exited s) in
  mkm (returned o (world s) r) (opCnt s) (maxOpCnt s) (exited s) rest (ops s) r.

(* the head of the loop, jsiEval.c 1133-1176 *)
Definition loop_head (o : oracle) (s : mst) (ip len : nat) (rest : list mode) : mst :=
  if Nat.leb len ip then leave o s true rest
  else match masked o (world s) ip with
  | Some k => mkm (world s) (opCnt s) (maxOpCnt s) (exited s) (AtLoop (ip + 1 + k) len :: rest) (ops s) (rc s)
  | None =>
      if interrupted o (world s) then leave o s false rest
      else if exited s then leave o s false rest
      else
        let cnt := wrap32 (opCnt s + 1) in
        if negb (maxOpCnt s =? 0) && (maxOpCnt s <? cnt)
        then leave o (mkm (world s) cnt (wrap32 (maxOpCnt s + 1000)) true (stack s) (ops s) (rc s)) false rest
        else mkm (world s) cnt (maxOpCnt s) (exited s) (InOp ip len 0 :: rest) (S (ops s)) (rc s)
  end.

(* inside an operation; jsiDoThrow 348-351 gives up at once if exited; jsi_evalcode 2192-2194 refuses if exited *)
Definition in_op (o : oracle) (s : mst) (ip len n : nat) (rest : list mode) : mst :=
  match native o (world s) n with
  | NFinish w ok catch next =>
      let s' := mkm w (opCnt s) (maxOpCnt s) (exited s) (stack s) (ops s) (rc s) in
      let go_on i := mkm w (opCnt s) (maxOpCnt s) (exited s) (AtLoop i len :: rest) (ops s) (rc s) in
      if ok then go_on next
      else if exited s then leave o s' false rest
      else match catch with Some i => go_on i | None => leave o s' false rest end
  | NInvoke w l =>
      if exited s
      then mkm (returned o w false) (opCnt s) (maxOpCnt s) (exited s) (InOp ip len (S n) :: rest) (ops s) false
      else mkm w (opCnt s) (maxOpCnt s) (exited s) (AtLoop 0 l :: InOp ip len (S n) :: rest) (ops s) (rc s)
  | NExit w => mkm w (opCnt s) (maxOpCnt s) true (InOp ip len (S n) :: rest) (ops s) (rc s)
  end.

(* one step; a state with an empty stack has finished and stays *)
Definition mstep (o : oracle) (s : mst) : mst :=
  match stack s with
  | [] => s
  | AtLoop ip len :: rest => loop_head o s ip len rest
  | InOp ip len n :: rest => in_op o s ip len n rest
  end.

Fixpoint msteps (o : oracle) (k : nat) (s : mst) : mst :=
  match k with O => s | S k => msteps o k (mstep o s) end.

(* a new interpreter with the limit [m] starts evaluating code of length [len] *)
Definition mstart (w : W) (m : Z) (len : nat) : mst := mkm w 0 m false [AtLoop 0 len] 0 true.
End Limit.
Arguments native {W}. Arguments masked {W}. Arguments interrupted {W}. Arguments returned {W}.
Arguments stack {W}. Arguments ops {W}. Arguments rc {W}. Arguments exited {W}. Arguments opCnt {W}.
Arguments maxOpCnt {W}. Arguments world {W}. Arguments msteps {W}. Arguments mstep {W}. Arguments mstart {W}.
Arguments mkm {W}. Arguments mkor {W}. Arguments NFinish {W}. Arguments NInvoke {W}. Arguments NExit {W}.
Arguments loop_head {W}. Arguments in_op {W}. Arguments leave {W}.
