(** * Model of the code generator (parser.y semantic actions, jsiCode.c) and of the
    bytecode interpreter loop (jsiEvalCodeSub in jsiEval.c).

    What is modelled: expressions over variables and constants, all operators, assignment,
    op-assignment, ++/--, && || ?: comma void typeof; statements: expression, var, block,
    if/else, while, do, for, for-in/of, switch, break/continue with labels, return, throw,
    try/catch/finally; the operand stack whose slots hold values or references to variables;
    the try list; the pending exception.

    Not modelled here: objects and property access, function calls, with, delete, the
    debugger/trace hooks, interrupts (the operation limit is in LimitModel.v).
    Simplification: error messages are values (strings) that are not empty, so "errMsgBuf is empty"
    is [None]; what is printed is the message without file and line, and repeated messages of one
    instruction (curIpLastError) are printed each time. *)
Require Import ZArith List Bool Lia.
Import ListNotations.
Local Open Scope Z_scope.

(** Binary operators that have an opcode of their own (parser.y 606-689). *)
Inductive bop := Add | Sub | Mul | Div | Mod | Less | Greater | LessEq | GreaterEq
  | Equ | Neq | StrictEq | StrictNeq | BAnd | BOr | BXor | Shl | Shr | UShr | InOp.
(** Unary operators (parser.y 602-606, 622-625). *)
Inductive uop := Neg | Pos | BNot | Not | Typeof.

(** The values and primitive operations are a parameter: the theorems hold for every such
    system.  [inr m] means that the operation fails with error message [m]
    (rc = JSI_ERROR after Jsi_LogError). *)
Record vsys := mkvsys {
  val : Type;
  truthy : val -> bool;                    (* Jsi_ValueIsTrue, jsiValue.c 738-766 *)
  vundef : val;
  isundef : val -> bool;                   (* vt == JSI_VT_UNDEF *)
  vflag : bool -> val;                     (* the 0/1 that OP_NEXT leaves, PUSHBOO *)
  vempty : val;                            (* the empty string *)
  binop : bop -> val -> val -> val + val;  (* jsiEval.c 1431-1639; first argument = left operand *)
  unop : uop -> val -> val + val;          (* jsiEval.c 1402-1430, 1743-1758 *)
  tonum : val -> val;                      (* Jsi_ValueToNumber *)
  numerr : val -> option val;              (* _jsi_StrictChk, jsiEval.c 17 *)
  step1 : bool -> val -> val;              (* d.num += 1 / -= 1 *)
  keysof : bool -> val -> list val + val;  (* OP_KEY: jsi_ValueObjGetKeys (true = for-of) *)
  (* operations that never fail (which ones depends on the strict option and the limits) *)
  bin_safe : bop -> bool;
  un_safe : uop -> bool;
  inc_safe : bool;
  keys_safe : bool;
  truthy_flag : forall b, truthy (vflag b) = b;
  isundef_undef : isundef vundef = true;
  isundef_empty : isundef vempty = false;
  bin_safe_ok : forall o a b, bin_safe o = true -> exists v, binop o a b = inl v;
  un_safe_ok : forall u a, un_safe u = true -> exists v, unop u a = inl v;
  inc_safe_ok : forall a, inc_safe = true -> numerr a = None;
  keys_safe_ok : forall o a, keys_safe = true -> exists ks, keysof o a = inl ks;
  (* operators produce numbers, strings and booleans, and error messages are strings *)
  bin_def : forall o a b, match binop o a b with inl v | inr v => isundef v = false end;
  un_def : forall u a, match unop u a with inl v | inr v => isundef v = false end;
  step_def : forall i a, isundef (step1 i a) = false;
  numerr_def : forall a m, numerr a = Some m -> isundef m = false;
  keys_def : forall o a m, keysof o a = inr m -> isundef m = false
}.

Inductive kind := KBreak | KContinue.

Section VM.
Context {VS : vsys}.
Notation V := (val VS).

(** ** Abstract syntax (what the grammar of parser.y recognises) *)

(* parser.y 593-720; variables are numbered *)
Inductive expr :=
| ECon (v : V)
| EVar (x : nat)
| EAsg (x : nat) (e : expr)
| EOpAsg (o : bop) (x : nat) (e : expr)
| EInc (inc post : bool) (x : nat)
| EUn (u : uop) (e : expr)
| EBin (o : bop) (a b : expr)
| EAnd (a b : expr)
| EOr (a b : expr)
| ECond (c a b : expr)
| EComma (a b : expr)
| EVoid (e : expr).

(* parser.y 140-150, 173-190, 251-485.  A for statement's first part is a statement (expression
   statement, var, or nothing); [cases] is the list of case/default clauses of a switch. *)
Inductive stmt :=
| SSkip
| SExpr (e : expr)
| SSeq (a b : stmt)
| SVar (x : nat) (e : option expr)
| SIf (c : expr) (a : stmt)
| SIfElse (c : expr) (a b : stmt)
| SWhile (l : option nat) (c : expr) (a : stmt)
| SDo (l : option nat) (a : stmt) (c : expr)
| SFor (l : option nat) (init : stmt) (c step : option expr) (a : stmt)
| SForIn (l : option nat) (isof : bool) (x : nat) (e : expr) (a : stmt)
| SSwitch (l : option nat) (e : expr) (cs : cases)
| SBreak (l : option nat)
| SContinue (l : option nat)
| SReturn (e : option expr)
| SThrow (e : expr)
| STry (b : stmt) (c : option (nat * stmt)) (f : option stmt)
with cases := CNil | CCons (e : option expr) (s : stmt) (cs : cases).

(** ** Bytecode (jsiInt.h jsi_op; jsiCode.c 60-390) *)
Inductive instr :=
| INop | IPush (v : V) | IPushVar (x : nat) | IPop (n : nat) | IPushTop | IUnref
| IBin (o : bop) | IUn (u : uop) | IAssign | IInc (inc post : bool)
| IJmp (off : Z) | IJmpPop (off : Z) (n : nat)
| IJtrue (off : Z) | IJfalse (off : Z) | IJtrueNp (off : Z) | IJfalseNp (off : Z)
| IRet (b : bool) | IThrow
| IStry (a b c : Z) | IEtry | IScatch (x : option nat) | IEcatch | ISfinal | IEfinal
| IKey (isof : bool) | INext
| IRes (k : kind) (l : option nat) (topop : nat).

Notation code := (list instr).
Definition zlen {A} (c : list A) : Z := Z.of_nat (length c).

(** ** Code generator *)

(* parser.y 593-720 and opassign, jsiCode.c 581-594.  codes_join is concatenation. *)
Fixpoint comp_e (e : expr) : code :=
  match e with
  | ECon v => [IPush v]
  | EVar x => [IPushVar x]
  | EAsg x e => IPushVar x :: comp_e e ++ [IAssign]                                   (* 664 *)
  | EOpAsg o x e => IPushVar x :: IPushTop :: comp_e e ++ [IBin o; IAssign]           (* 665-675 *)
  | EInc i p x => [IPushVar x; IInc i p]                                              (* 613-631 *)
  | EUn u e => comp_e e ++ [IUn u]
  | EBin o a b => comp_e a ++ comp_e b ++ [IBin o]
  | EAnd a b => comp_e a ++ IJfalseNp (zlen (comp_e b) + 1 + 1) :: IPop 1 :: comp_e b (* 645-648 *)
  | EOr a b => comp_e a ++ IJtrueNp (zlen (comp_e b) + 1 + 1) :: IPop 1 :: comp_e b   (* 649-652 *)
  | ECond c a b => comp_e c ++ IJfalse (zlen (comp_e a) + 1 + 1) ::
                   comp_e a ++ IJmp (zlen (comp_e b) + 1) :: comp_e b                 (* 717-720 *)
  | EComma a b => comp_e a ++ IPop 1 :: comp_e b                                      (* 600 *)
  | EVoid e => comp_e e ++ [IPop 1; IPush (vundef VS)]                                (* 607 *)
  end.

Definition opt_eqb (a b : option nat) : bool :=
  match a, b with None, None => true | Some x, Some y => Nat.eqb x y | _, _ => false end.

(* Does a break/continue with label [l] name the loop or switch labelled [want]?
   jsiCode.c 412-417: no label, or the same label. *)
Definition label_hit (l want : option nat) : bool :=
  match l with None => true | Some _ => opt_eqb l want end.

(* jsiCode.c 422-431, 443-450: OP_JMPPOP when something has to be popped, else OP_JMP *)
Definition mkjmp (off : Z) (n : nat) : instr :=
  match n with O => IJmp off | S _ => IJmpPop off n end.

(* jsiCode.c 404-454 code_reserved_replace, one instruction at index [i] of a body of length [len] *)
Definition rr1 (len step : Z) (break_only : bool) (want : option nat) (topop : nat) (i : Z) (ins : instr) : instr :=
  match ins with
  | IRes k l n =>
      if label_hit l want then
        match k with
        | KContinue => if break_only then IRes k l (n + topop) else mkjmp (len - i) n
        | KBreak => mkjmp (step + len - i) n
        end
      else IRes k l (n + topop)
  | _ => ins
  end.

Fixpoint rr_at (len step : Z) (bo : bool) (want : option nat) (topop : nat) (i : Z) (c : code) : code :=
  match c with
  | [] => []
  | ins :: c' => rr1 len step bo want topop i ins :: rr_at len step bo want topop (i + 1) c'
  end.

(* jsiCode.c 404-454 *)
Definition reserved_replace (c : code) (step : Z) (bo : bool) (want : option nat) (topop : nat) : code :=
  rr_at (zlen c) step bo want topop 0 c.

(* parser.y 251-303: offset, inside the joined case bodies, of the default clause *)
Fixpoint def_off (off : Z) (lens : list (option expr * Z)) : option Z :=
  match lens with
  | [] => None
  | (Some _, n) :: r => def_off (off + n) r
  | (None, n) :: r => match def_off (off + n) r with Some o => Some o | None => Some off end
  end.

(* parser.y 286-295: the dispatch code in front of [tail]; [PUSHTOP; expr; ===; JTRUE to the body] *)
Fixpoint heads (off : Z) (lens : list (option expr * Z)) (tail : code) : code :=
  match lens with
  | [] => tail
  | (Some e, n) :: r =>
      let h := heads (off + n) r tail in
      IPushTop :: comp_e e ++ IBin StrictEq :: IJtrue (zlen h + off + 1) :: h
  | (None, n) :: r => heads (off + n) r tail
  end.

(* parser.y 279-285: jump over the bodies, preceded by the jump to the default clause if any *)
Definition dispatch_tail (lens : list (option expr * Z)) (all : Z) : code :=
  match def_off 0 lens with
  | Some o => [IJmp (1 + o + 1); IJmp (all + 1)]
  | None => [IJmp (all + 1)]
  end.

(* parser.y, per production (lines at each case) *)
Fixpoint comp_s (s : stmt) : code :=
  match s with
  | SSkip => [INop]                                                                   (* 187, 242, 590 *)
  | SExpr e => comp_e e ++ [IPop 1]                                                   (* 174 *)
  | SSeq a b => comp_s a ++ comp_s b                                                  (* 141 *)
  | SVar x None => [IPushVar x; IPush (vundef VS); IAssign; IPop 1]                   (* 346-354 *)
  | SVar x (Some e) => IPushVar x :: comp_e e ++ [IAssign; IPop 1]                    (* 355-363 *)
  | SIf c a => comp_e c ++ IJfalse (zlen (comp_s a) + 1) :: comp_s a                  (* 377-380 *)
  | SIfElse c a b =>                                                                  (* 381-386 *)
      comp_e c ++ IJfalse (zlen (comp_s a) + 1 + 1) :: comp_s a ++
      IJmp (zlen (comp_s b) + 1) :: comp_s b
  | SWhile l c a =>                                                                   (* 467-475 *)
      comp_e c ++ IJfalse (zlen (comp_s a) + 2) :: reserved_replace (comp_s a) 1 false l 0 ++
      [IJmp (- (zlen (comp_s a) + zlen (comp_e c) + 1))]
  | SDo l a c =>                                                                      (* 477-485 *)
      reserved_replace (comp_s a) (zlen (comp_e c) + 1) false l 0 ++ comp_e c ++
      [IJtrue (- (zlen (comp_s a) + zlen (comp_e c)))]
  | SFor l init c step a =>                                                           (* 396-406, 449-465 *)
      let cond := match c with Some e => comp_e e | None => [IPush (vflag VS true)] end in
      let stp := match step with Some e => comp_e e ++ [IPop 1] | None => [INop] end in
      comp_s init ++ cond ++ IJfalse (zlen stp + zlen (comp_s a) + 2) ::
      reserved_replace (comp_s a) (zlen stp + 1) false l 0 ++ stp ++
      [IJmp (- (zlen cond + zlen stp + zlen (comp_s a) + 1))]
  | SForIn l isof x e a =>                                                            (* jsiCode.c 527-539 *)
      comp_e e ++ IKey isof :: IPushVar x :: INext :: IJfalse (zlen (comp_s a) + 2) ::
      reserved_replace (comp_s a) 1 false l 2 ++ [IJmp (- (3 + zlen (comp_s a))); IPop 2]
  | SSwitch l e CNil => comp_e e ++ [IPop 1]                                          (* 252 *)
  | SSwitch l e cs =>                                                                 (* 253-301 *)
      comp_e e ++ IUnref ::
      heads 0 (case_lens cs) (dispatch_tail (case_lens cs) (zlen (comp_cs cs))) ++
      reserved_replace (comp_cs cs) 0 true l 1 ++ [IPop 1]
  | SBreak l => [IRes KBreak l 0]                                                     (* 177 *)
  | SContinue l => [IRes KContinue l 0]                                               (* 178 *)
  | SReturn (Some e) => comp_e e ++ [IRet true]                                       (* 179 *)
  | SReturn None => [IRet false]                                                      (* 180 *)
  | SThrow e => comp_e e ++ [IThrow]                                                  (* 185 *)
  | STry b c f =>                                                                     (* 317-340 *)
      let tb := comp_s b ++ [IEtry] in
      let cb := match c with Some (x, s) => IScatch (Some x) :: comp_s s ++ [IEcatch]
                           | None => [IScatch None; IEcatch] end in
      let fb := match f with Some s => ISfinal :: comp_s s ++ [IEfinal]
                           | None => [ISfinal; IEfinal] end in
      IStry (zlen tb) (zlen cb) (zlen fb) :: tb ++ cb ++ fb
  end
with comp_cs (cs : cases) : code :=          (* allstats: parser.y 260-263 *)
  match cs with CNil => [] | CCons _ s r => comp_s s ++ comp_cs r end
with case_lens (cs : cases) : list (option expr * Z) :=
  match cs with CNil => [] | CCons e s r => (e, zlen (comp_s s)) :: case_lens r end.

(** ** Run-time state *)

(* Variables: the global (function) scope, and one scope object per active catch block holding the
   catch parameter (OP_SCATCH, jsiEval.c 1967-1990).  [exc] is ps->last_exception (undefined when
   reset), [emsg] is interp->errMsgBuf ([None]: empty), [logs] the errors printed so far (newest
   first). *)
Record state := mkst { glob : nat -> V; frames : list (nat * V); exc : V; emsg : option V; logs : list V }.

(* a variable location: a global one, or the parameter of the i-th active catch block *)
Inductive loc := LG (x : nat) | LF (i : nat).

(* jsiPushVar, jsiEval.c 858-911: innermost scope first, else the global scope (created there,
   undefined, when absent; variables are a total map here) *)
Fixpoint find_frame (x : nat) (i : nat) (fs : list (nat * V)) (best : option nat) : option nat :=
  match fs with
  | [] => best
  | (y, _) :: r => find_frame x (S i) r (if Nat.eqb x y then Some i else best)
  end.
Definition resolve (st : state) (x : nat) : loc :=
  match find_frame x 0 (frames st) None with Some i => LF i | None => LG x end.

Definition upd (g : nat -> V) (x : nat) (v : V) : nat -> V := fun y => if Nat.eqb x y then v else g y.
Fixpoint upd_frame (fs : list (nat * V)) (i : nat) (v : V) : list (nat * V) :=
  match fs, i with
  | [], _ => []
  | (y, _) :: r, O => (y, v) :: r
  | f :: r, S i' => f :: upd_frame r i' v
  end.

Definition rdloc (st : state) (l : loc) : V :=
  match l with
  | LG x => glob st x
  | LF i => match nth_error (frames st) i with Some (_, v) => v | None => vundef VS end
  end.
Definition wrloc (st : state) (l : loc) (v : V) : state :=
  match l with
  | LG x => mkst (upd (glob st) x v) (frames st) (exc st) (emsg st) (logs st)
  | LF i => mkst (glob st) (upd_frame (frames st) i v) (exc st) (emsg st) (logs st)
  end.
Definition set_exc (st : state) (v : V) : state := mkst (glob st) (frames st) v (emsg st) (logs st).
Definition set_emsg (st : state) (v : option V) : state := mkst (glob st) (frames st) (exc st) v (logs st).
(* Jsi_LogMsg, jsiUtils.c 205-227: [hold]: a try statement of the frame is active and the innermost one is
   in its try block (tryDepth > 0, neither inCatch nor inFinal).  The message is kept for the catch block,
   unless one is kept already; otherwise it is printed. *)
Definition log_error (hold : bool) (st : state) (m : V) : state :=
  if hold then match emsg st with None => set_emsg st (Some m) | Some _ => st end
  else mkst (glob st) (frames st) (exc st) (emsg st) (m :: logs st).
(* JSI_RESTORE_SCOPE, jsiEval.c 330-346: back to the scope chain saved by OP_STRY *)
Definition restore (st : state) (n : nat) : state := mkst (glob st) (firstn n (frames st)) (exc st) (emsg st) (logs st).
(* OP_SCATCH, jsiEval.c 1967-1990: a new scope holding the exception (last_exception, or the error
   message when that is undefined) *)
Definition bind_exc (st : state) (x : nat) : state :=
  if isundef VS (exc st)
  then mkst (glob st) (frames st ++ [(x, match emsg st with Some m => m | None => vempty VS end)]) (exc st) None (logs st)
  else mkst (glob st) (frames st ++ [(x, exc st)]) (vundef VS) (emsg st) (logs st).

(* A stack slot: a value, a reference to a variable (JSI_VT_VARIABLE) or a for-in iterator. *)
Inductive slot := SVal (v : V) | SRef (l : loc) | SIter (ks : list V).

(* jsiVarDeref, jsiEval.c 207-218: the value a slot stands for now *)
Definition deref (st : state) (s : slot) : V :=
  match s with SVal v => v | SRef l => rdloc st l | SIter _ => vundef VS end.

(* jsi_TryList entry, jsiInt.h 1054-1085; [frs] is the saved scope, [inh]: inCatch or inFinal *)
Inductive lastop := LNone | LThrow | LJmp (tojmp : Z).
Record tryent := mkte {
  tstart : Z; tend : Z; cstart : Z; cend : Z; fstart : Z; fend : Z;
  tsp : nat; frs : nat; last : lastop; inh : bool }.
Definition set_last (e : tryent) (l : lastop) : tryent :=
  mkte (tstart e) (tend e) (cstart e) (cend e) (fstart e) (fend e) (tsp e) (frs e) l (inh e).
Definition set_inh (e : tryent) : tryent :=
  mkte (tstart e) (tend e) (cstart e) (cend e) (fstart e) (fend e) (tsp e) (frs e) (last e) true.
(* the condition of Jsi_LogMsg, jsiUtils.c 212-213; the try list is that of the frame (no calls here) *)
Definition holds (t : list tryent) : bool := match map inh t with b :: _ => negb b | [] => false end.

Record cfg := mkcfg { ip : Z; stk : list slot; cst : state; tl : list tryent }.

(* How jsiEvalCodeSub ends: code exhausted, OP_RET, or rc = JSI_ERROR *)
Inductive halt := HEnd | HRet (v : option V) | HErr.
(* [Stuck]: Jsi_LogBug, or an access below the bottom of the stack *)
Inductive result := Run (c : cfg) | Halt (h : halt) (st : state) | Stuck.

Definition in_rng (a i b : Z) : bool := (a <=? i) && (i <? b).

(* jsiDoThrow 371-372: drop (or, if the stack is lower than at OP_STRY, re-expose) slots down to tsp *)
Definition popto (n : nat) (s : list slot) : list slot :=
  repeat (SVal (vundef VS)) (n - length s) ++ skipn (length s - n) s.

(* jsiDoThrow, jsiEval.c 348-399.  [isthr]: the failing instruction is OP_THROW. *)
Fixpoint do_throw (i : Z) (isthr : bool) (s : list slot) (st : state) (t : list tryent) : result :=
  match t with
  | [] => Halt HErr st
  | e :: t' =>
      let s' := popto (tsp e) s in
      if in_rng (tstart e) i (tend e) then Run (mkcfg (cstart e) s' st t)
      else if in_rng (cstart e) i (cend e) then
        if isthr && Nat.eqb (length t) 1 then Halt HErr st
        else Run (mkcfg (fstart e) s' st (set_last e LThrow :: t'))
      else if in_rng (fstart e) i (fend e) then do_throw i isthr s' st t'
      else Stuck
  end.

(* OP_JMP 1782-1817 and the end of OP_EFINAL 2022-2055: go to tojmp+1, through the finally blocks
   that are being left *)
Fixpoint do_jump (i tojmp : Z) (s : list slot) (st : state) (t : list tryent) : result :=
  match t with
  | [] => Run (mkcfg (tojmp + 1) s st [])
  | e :: t' =>
      if in_rng (tstart e) tojmp (fend e) then Run (mkcfg (tojmp + 1) s st t)
      else if in_rng (tstart e) i (cend e) then Run (mkcfg (fstart e) s st (set_last e (LJmp tojmp) :: t'))
      else if in_rng (fstart e) i (fend e) then do_jump i tojmp s st t'
      else Stuck
  end.

Definition fetch (P : code) (i : Z) : option instr :=
  if i <? 0 then None else nth_error P (Z.to_nat i).

(* One iteration of the loop of jsiEvalCodeSub, jsiEval.c 1133-2135 *)
Definition step (P : code) (c : cfg) : result :=
  let i := ip c in let s := stk c in let st := cst c in let t := tl c in
  let next s' st' := Run (mkcfg (i + 1) s' st' t) in
  match fetch P i with
  | None => if zlen P <=? i then Halt HEnd st else Stuck
  | Some ins =>
    match ins with
    | INop => next s st
    | IPush v => next (SVal v :: s) st                                       (* 1218-1252 *)
    | IPushVar x => next (SRef (resolve st x) :: s) st                       (* 1253 *)
    | IPop n => if Nat.leb n (length s) then next (skipn n s) st else Stuck  (* jsiPop 194 *)
    | IPushTop => match s with a :: r => next (a :: a :: r) st | _ => Stuck end
    | IUnref => match s with a :: r => next (SVal (deref st a) :: r) st | _ => Stuck end
    | IBin o =>                                                              (* VarDeref(2) first *)
        match s with
        | b :: a :: r =>
            match binop VS o (deref st a) (deref st b) with
            | inl v => next (SVal v :: r) st
            | inr m => do_throw i false (a :: r) (log_error (holds t) st m) t
            end
        | _ => Stuck
        end
    | IUn u =>
        match s with
        | a :: r =>
            match unop VS u (deref st a) with
            | inl v => next (SVal v :: r) st
            | inr m => do_throw i false (a :: r) (log_error (holds t) st m) t
            end
        | _ => Stuck
        end
    | IAssign =>                                                             (* 1293-1303 *)
        match s with
        | b :: SRef l :: r => next (SRef l :: r) (wrloc st l (deref st b))
        | _ => Stuck
        end
    | IInc inc post =>                                                       (* 1705-1742 *)
        match s with
        | SRef l :: r =>
            let n := tonum VS (rdloc st l) in
            let n' := step1 VS inc n in
            let st' := wrloc st l n' in
            match numerr VS n with
            | None => next (SVal (if post then step1 VS (negb inc) n' else n') :: r) st'
            | Some m => do_throw i false (SVal n' :: r) (log_error (holds t) st' m) t
            end
        | _ => Stuck
        end
    | IJtrue off | IJfalse off =>                                            (* 1767-1778 *)
        match s with
        | a :: r =>
            let tr := truthy VS (deref st a) in
            let taken := match ins with IJtrue _ => tr | _ => negb tr end in
            Run (mkcfg (if taken then i + off else i + 1) r st t)
        | _ => Stuck
        end
    | IJtrueNp off | IJfalseNp off =>
        match s with
        | a :: r =>
            let v := deref st a in
            let taken := match ins with IJtrueNp _ => truthy VS v | _ => negb (truthy VS v) end in
            Run (mkcfg (if taken then i + off else i + 1) (SVal v :: r) st t)
        | _ => Stuck
        end
    | IJmp off => do_jump i (i + off - 1) s st t
    | IJmpPop off n => if Nat.leb n (length s) then do_jump i (i + off - 1) (skipn n s) st t else Stuck
    | IRet b =>                                                              (* 1855-1878 *)
        if b then match s with a :: _ => Halt (HRet (Some (deref st a))) st | _ => Stuck end
        else Halt (HRet None) st
    | IThrow =>                                                              (* 2056-2063 *)
        match s with
        | a :: r => let v := deref st a in do_throw i true (SVal v :: r) (set_exc st v) t
        | _ => Stuck
        end
    | IStry a b f =>                                                         (* 1935-1951 *)
        let te := i + a in let ce := te + b in
        Run (mkcfg (i + 1) s st
          (mkte i te (te + 1) ce (ce + 1) (ce + f) (length s) (length (frames st)) LNone false :: t))
    | IEtry | IEcatch =>             (* 1952-1958, 1991-1998; inCatch = 0, and inFinal = 1 at once after it *)
        match t with e :: _ => Run (mkcfg (fstart e) s st t) | _ => Stuck end
    | IScatch None => match t with _ :: _ => do_throw i false s st t | _ => Stuck end   (* 1964-1966 *)
    | IScatch (Some x) => match t with e :: t' => Run (mkcfg (i + 1) s (bind_exc st x) (set_inh e :: t')) | _ => Stuck end
    | ISfinal =>                                                             (* 1999-2008 *)
        match t with e :: t' => Run (mkcfg (i + 1) s (restore st (frs e)) (set_inh e :: t')) | _ => Stuck end
    | IEfinal =>                                                             (* 2009-2055 *)
        match t with
        | e :: t' =>
            match last e with
            | LNone => Run (mkcfg (i + 1) s st t')
            | LThrow => do_throw i false s st t'
            | LJmp tj => do_jump i tj s st t'
            end
        | _ => Stuck
        end
    | IKey isof =>                                                           (* 1616-1630 *)
        match s with
        | a :: r =>
            match keysof VS isof (deref st a) with
            | inl ks => next (SIter ks :: SVal (deref st a) :: r) st
            | inr m => do_throw i false (SVal (deref st a) :: r) (log_error (holds t) st m) t
            end
        | _ => Stuck
        end
    | INext =>                                                               (* 1631-1704 *)
        match s with
        | SRef l :: SIter ks :: r =>
            match ks with
            | [] => next (SVal (vflag VS false) :: SIter [] :: r) st
            | k :: ks' => next (SVal (vflag VS true) :: SIter ks' :: r) (wrloc st l k)
            end
        | _ => Stuck
        end
    | IRes _ _ _ => do_throw i false s (log_error (holds t) st (vempty VS)) t           (* 2107-2122; message abstracted *)
    end
  end.

(* the loop: run for n iterations *)
Fixpoint run (P : code) (n : nat) (c : cfg) : result :=
  match n with
  | O => Run c
  | S n' => match step P c with Run c' => run P n' c' | r => r end
  end.

Definition start (st : state) : cfg := mkcfg 0 [] st [].

End VM.
