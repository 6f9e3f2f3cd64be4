(** * Model of functions, closures, objects, prototypes, [this] and [new]
    (code generator: semantic actions of parser.y; run time: jsiEval.c, jsiProto.c, jsiValue.c).

    What is modelled: function expressions and statements, arrow functions, calls, method calls,
    [new], [instanceof], [this], object literals, member reads and writes, variables with lexical
    scopes, operators on values, && || ?: comma void, if/else, while, return.  The memory consists of
    cells (a Jsi_Value that a variable or property owns) and objects (Jsi_Obj; scopes are objects, as
    in the C code, and the global scope is also the default [this]).  The operand stack holds values,
    references to cells (JSI_VT_VARIABLE) and strings used as keys; beside it runs the array of
    receivers (_jsi_THISIDX), which is indexed like the stack and survives calls.

    Simplifications: the option noCheck is on, except that the check of arguments is a parameter
    ([args_bad]); built-in functions and properties, [arguments], getters/setters, delete, freeze,
    const, eval and autoload are not modelled; names and keys are numbers, number 0 is "prototype",
    and no name is one of this, length, constructor, callee, __proto__; Jsi_ObjFree is not modelled
    (memory only grows; freeing is in RefModel.v).  An error ends the whole run (try statements are
    in VmModel.v). *)
Require Import ZArith List Bool Lia.
Import ListNotations.
Local Open Scope nat_scope.

Definition name := nat.
Definition prototype : name := 0.

(* Jsi_Value, jsiInt.h 560-600: a primitive, or a pointer to an object *)
Inductive value (P : Type) := VPrim (p : P) | VObj (a : nat).
Arguments VPrim {P}. Arguments VObj {P}.

(** Primitive values and operators are a parameter: the theorems hold for every such system. *)
Record psys := mkpsys {
  prim : Type; uop : Type; bop : Type;
  undef : prim;                                            (* undefined *)
  vbool : bool -> prim;                                    (* Jsi_ValueMakeBool *)
  un_sem : uop -> value prim -> option (value prim);       (* jsiEval.c 1402-1430; None: an error *)
  bin_sem : bop -> value prim -> value prim -> option (value prim);  (* jsiEval.c 1431-1639 *)
  truth : value prim -> bool;                              (* Jsi_ValueIsTrue, jsiValue.c 738-766 *)
  (* Jsi_ValueToObject, jsiValue.c 698-737: the prototype of the wrapper object; None: an error *)
  wrapper : prim -> option nat;
  (* jsi_RunFuncCallCheck jsiFunc.c 336-385 and jsi_ArgTypeCheck jsiFunc.c 199-215: parameters and
     argument values; always false when noCheck is on *)
  args_bad : list name -> list (value prim) -> bool;
  (* interp->maxDepth, jsiEval.c 1131; None: no limit *)
  max_depth : option nat
}.

Section Fn.
Context {PS : psys}.
Notation P := (prim PS).
Notation V := (value (prim PS)).
Notation vundef := (VPrim (undef PS)).

(** ** Abstract syntax *)

(* parser.y 593-850 *)
Inductive expr :=
| ECon (p : P)
| EVar (x : name)
| EThis
| EAsg (x : name) (e : expr)
| EUn (o : uop PS) (e : expr)
| EBin (o : bop PS) (a b : expr)
| EAnd (a b : expr)
| EOr (a b : expr)
| ECond (c a b : expr)
| EComma (a b : expr)
| EVoid (e : expr)
| EFun (f : fundef)
| ECall (e : expr) (args : exprs)               (* e(args), e not a member expression *)
| EMeth (e : expr) (k : name) (args : exprs)    (* e.k(args) *)
| ENew (e : expr) (args : exprs)
| EGet (e : expr) (k : name)
| ESet (e : expr) (k : name) (v : expr)
| EObj (is : items)
| EInst (x : name) (e : expr)                   (* x instanceof e *)
with exprs := Enil | Econs (e : expr) (es : exprs)
with items := Inil | Icons (k : name) (e : expr) (is : items)
(* parser.y 140-212, 342-386, 467-475 *)
with stmt :=
| SSkip
| SExpr (e : expr)
| SSeq (a b : stmt)
| SVar (x : name) (e : expr)                    (* var x = e *)
| SDecl (x : name)                              (* var x *)
| SFun (x : name) (f : fundef)
| SIf (c : expr) (a : stmt)
| SIfElse (c : expr) (a b : stmt)
| SWhile (c : expr) (a : stmt)
| SReturn (e : expr)
| SRet                                          (* return; *)
(* arrow function?, parameters, body *)
with fundef := Fun (arrow : bool) (ps : list name) (body : stmt).

Definition is_arrow (f : fundef) : bool := match f with Fun a _ _ => a end.
Definition params (f : fundef) : list name := match f with Fun _ ps _ => ps end.
Definition body (f : fundef) : stmt := match f with Fun _ _ b => b end.

Fixpoint count (es : exprs) : nat := match es with Enil => 0 | Econs _ r => S (count r) end.
Fixpoint icount (is : items) : nat := match is with Inil => 0 | Icons _ _ r => S (icount r) end.

(** ** The variables of a function *)

(* jsi_PstateAddVar, jsiPstate.c 147-166: each name once, in order *)
Definition add_var (xs : list name) (x : name) : list name :=
  if existsb (Nat.eqb x) xs then xs else xs ++ [x].

(* The var declarations and function statements met while the body is parsed (parser.y 214-220, 346-363).
   A function expression or statement opens a scope of its own; an arrow function opens its scope
   only after its body has been parsed (parser.y 634-643), so its declarations go to the enclosing
   function. *)
Fixpoint decl_e (e : expr) (xs : list name) : list name :=
  match e with
  | ECon _ | EVar _ | EThis => xs
  | EAsg _ e | EUn _ e | EVoid e | EGet e _ | EInst _ e => decl_e e xs
  | EBin _ a b | EAnd a b | EOr a b | EComma a b | ESet a _ b => decl_e b (decl_e a xs)
  | ECond a b c => decl_e c (decl_e b (decl_e a xs))
  | EFun f => decl_f f xs
  | ECall e es | EMeth e _ es | ENew e es => decl_es es (decl_e e xs)
  | EObj is => decl_is is xs
  end
with decl_es (es : exprs) (xs : list name) : list name :=
  match es with Enil => xs | Econs e r => decl_es r (decl_e e xs) end
with decl_is (is : items) (xs : list name) : list name :=
  match is with Inil => xs | Icons _ e r => decl_is r (decl_e e xs) end
with decl_s (s : stmt) (xs : list name) : list name :=
  match s with
  | SSkip => xs
  | SExpr e => decl_e e xs
  | SSeq a b => decl_s b (decl_s a xs)
  | SDecl x => add_var xs x
  | SVar x e => add_var (decl_e e xs) x
  | SFun x f => add_var xs x
  | SIf c a => decl_s a (decl_e c xs)
  | SIfElse c a b => decl_s b (decl_s a (decl_e c xs))
  | SWhile c a => decl_s a (decl_e c xs)
  | SRet => xs
  | SReturn e => decl_e e xs
  end
with decl_f (f : fundef) (xs : list name) : list name :=
  match f with Fun true _ b => decl_s b xs | Fun false _ _ => xs end.

(* jsi_FuncMake, jsiFunc.c 490-507: localnames *)
Definition locals (f : fundef) : list name :=
  match f with Fun true _ _ => [] | Fun false _ b => decl_s b [] end.

(** ** Bytecode (jsiCode.c 253-345) *)
Inductive instr :=
| INop | IPush (p : P) | IPushVar (x : name) | IPushThis | IPushStr (k : name) | IPushFun (f : fundef)
| IPop | IUn (o : uop PS) | IBin (o : bop PS)
| IAssign | IAssignMem | ISub | IObject (n : nat) | IInst
| IChthis (b : bool) | IFcall (n : nat) | INewFcall (n : nat)
| IJmp (off : Z) | IJfalse (off : Z) | IJfalseNp (off : Z) | IJtrueNp (off : Z)
| IRet (b : bool).

Notation code := (list instr).
Definition zlen {A} (c : list A) : Z := Z.of_nat (length c).
Local Open Scope Z_scope.

(** ** Code generator: parser.y, per production (lines at each case) *)
Fixpoint comp_e (e : expr) : code :=
  match e with
  | ECon p => [IPush p]                                                               (* 828-840 *)
  | EVar x => [IPushVar x]                                                            (* 778-783 *)
  | EThis => [IPushThis]                                                              (* 785 *)
  | EAsg x e => IPushVar x :: comp_e e ++ [IAssign]                                   (* 667 *)
  | EUn o e => comp_e e ++ [IUn o]                                                    (* 603-606 *)
  | EBin o a b => comp_e a ++ comp_e b ++ [IBin o]                                    (* 608-612, 653-666 *)
  | EAnd a b => comp_e a ++ IJfalseNp (zlen (comp_e b) + 1 + 1) :: IPop :: comp_e b   (* 645-648 *)
  | EOr a b => comp_e a ++ IJtrueNp (zlen (comp_e b) + 1 + 1) :: IPop :: comp_e b     (* 649-652 *)
  | ECond c a b => comp_e c ++ IJfalse (zlen (comp_e a) + 1 + 1) ::
                   comp_e a ++ IJmp (zlen (comp_e b) + 1) :: comp_e b                 (* 717-720 *)
  | EComma a b => comp_e a ++ IPop :: comp_e b                                        (* 600 *)
  | EVoid e => comp_e e ++ [IPop; IPush (undef PS)]                                   (* 607 *)
  | EFun f => [IPushFun f]                                                            (* 487-504, 635-644 *)
  | ECall e es => comp_e e ++ IChthis false :: comp_es es ++ [IFcall (count es)]      (* 745-749, 766-772 *)
  | EMeth e k es => comp_e e ++ IPushStr k :: IChthis true :: ISub ::
                    comp_es es ++ [IFcall (count es)]                                 (* 725-733, 750-764 *)
  | ENew e es => comp_e e ++ comp_es es ++ [INewFcall (count es)]                     (* 688-711 *)
  | EGet e k => comp_e e ++ [IPushStr k; ISub]                                        (* 602, 789-797 *)
  | ESet e k v => comp_e e ++ IPushStr k :: comp_e v ++ [IAssignMem]                  (* 667, 789-797 *)
  | EObj is => comp_is is ++ [IObject (icount is)]                                    (* 847 *)
  | EInst x e => IPushVar x :: comp_e e ++ [IInst]                                    (* 679 *)
  end
with comp_es (es : exprs) : code :=                                                   (* 806-815 *)
  match es with
  | Enil => [INop]                                     (* (opl ? opl : code_nop()) *)
  | Econs e r => comp_e e ++ match r with Enil => [] | Econs _ _ => comp_es r end
  end
with comp_is (is : items) : code :=                                                   (* 870-890 *)
  match is with
  | Inil => [INop]
  | Icons k e r => IPushStr k :: comp_e e ++ match r with Inil => [] | Icons _ _ _ => comp_is r end
  end.

Fixpoint comp_s (s : stmt) : code :=
  match s with
  | SSkip => [INop]                                                                   (* 187 *)
  | SExpr e => comp_e e ++ [IPop]                                                     (* 174 *)
  | SSeq a b => comp_s a ++ comp_s b                                                  (* 141 *)
  | SDecl x => [IPushVar x; IPush (undef PS); IAssign; IPop]                      (* 347-354 *)
  | SVar x e => IPushVar x :: comp_e e ++ [IAssign; IPop]                      (* 355-363 *)
  | SFun x f => [IPushVar x; IPushFun f; IAssign; IPop]                               (* 203-211 *)
  | SIf c a => comp_e c ++ IJfalse (zlen (comp_s a) + 1) :: comp_s a                  (* 377-380 *)
  | SIfElse c a b =>                                                                  (* 381-386 *)
      comp_e c ++ IJfalse (zlen (comp_s a) + 1 + 1) :: comp_s a ++
      IJmp (zlen (comp_s b) + 1) :: comp_s b
  | SWhile c a =>                                                                     (* 467-475 *)
      comp_e c ++ IJfalse (zlen (comp_s a) + 2) :: comp_s a ++
      [IJmp (- (zlen (comp_s a) + zlen (comp_e c) + 1))]
  | SReturn e => comp_e e ++ [IRet true]                                       (* 179 *)
  | SRet => [IRet false]                                                      (* 180 *)
  end.
Local Open Scope nat_scope.

(** ** Memory *)

(* Jsi_Obj, jsiInt.h: the properties (key, cell), __proto__, and for functions d.fobj: the Jsi_Func
   (its source here; its opcodes are [comp_s (body f)]) and the scope chain, outermost first *)
Record obj := mkobj { props : list (name * nat); proto : option nat; fn : option (fundef * list nat) }.
Record mem := mkmem { cells : list V; objs : list obj }.

Definition cell (m : mem) (c : nat) : V := nth c (cells m) vundef.
Definition getobj (m : mem) (a : nat) : obj := nth a (objs m) (mkobj [] None None).

(* Jsi_ValueNew, Jsi_ValueDup: a new cell *)
Definition new_cell (m : mem) (v : V) : nat * mem :=
  (length (cells m), mkmem (cells m ++ [v]) (objs m)).
(* Jsi_ObjNewType, jsiObj.c 283-302 *)
Definition new_obj (m : mem) (o : obj) : nat * mem :=
  (length (objs m), mkmem (cells m) (objs m ++ [o])).

Fixpoint upd {A} (l : list A) (i : nat) (v : A) : list A :=
  match l, i with
  | [], _ => []
  | _ :: r, O => v :: r
  | a :: r, S i' => a :: upd r i' v
  end.
Definition set_cell (m : mem) (c : nat) (v : V) : mem := mkmem (upd (cells m) c v) (objs m).

Fixpoint assoc (k : name) (ps : list (name * nat)) : option nat :=
  match ps with
  | [] => None
  | (k', c) :: r => if Nat.eqb k k' then Some c else assoc k r
  end.
(* jsi_TreeObjSetValue, jsiObj.c 23-53: the pointer to the cell is put in, or replaced *)
Fixpoint put (k : name) (c : nat) (ps : list (name * nat)) : list (name * nat) :=
  match ps with
  | [] => [(k, c)]
  | (k', c') :: r => if Nat.eqb k k' then (k, c) :: r else (k', c') :: put k c r
  end.
(* Jsi_ValueInsert, jsiValue.c 1428-1434 *)
Definition insert (m : mem) (a : nat) (k : name) (c : nat) : mem :=
  let o := getobj m a in
  mkmem (cells m) (upd (objs m) a (mkobj (put k c (props o)) (proto o) (fn o))).

(* Jsi_ValueObjLookup, jsiValue.c 328-357: own properties only *)
Definition own (m : mem) (a : nat) (k : name) : option nat := assoc k (props (getobj m a)).

(* jsi_ValueLookupBase, jsiValue.c 980-1012: own, then along __proto__.  The C recursion has no
   bound; here it stops after as many objects as there are ([n]). *)
Fixpoint lookup (n : nat) (m : mem) (a : nat) (k : name) : option nat :=
  match own m a k with
  | Some c => Some c
  | None =>
      match n, proto (getobj m a) with
      | S n', Some p => lookup n' m p k
      | _, _ => None
      end
  end.
Definition get_prop (m : mem) (a : nat) (k : name) : option nat := lookup (length (objs m)) m a k.

(* Jsi_ValueInstanceOf, jsiValue.c 1823-1842: is [p] on the prototype chain that starts at [a]? *)
Fixpoint on_chain (n : nat) (m : mem) (a : option nat) (p : nat) : bool :=
  match n, a with
  | S n', Some a' => if Nat.eqb a' p then true else on_chain n' m (proto (getobj m a')) p
  | _, _ => false
  end.
Definition instance_of (m : mem) (v f : V) : bool :=
  match v, f with
  | VObj a, VObj b =>
      match fn (getobj m b), own m b prototype with
      | Some _, Some c =>
          match cell m c with
          | VObj p => on_chain (S (length (objs m))) m (proto (getobj m a)) p
          | _ => false
          end
      | _, _ => false
      end
  | _, _ => false
  end.

(* The objects made by jsi_InitProto and its like (jsiProto.c 768-800): 0 the global scope (Top_object),
   1 Object.prototype, 2 Function.prototype, 3 String.prototype, 4 Number.prototype,
   5 Boolean.prototype; their built-in properties are not modelled *)
Definition glob : nat := 0.
Definition object_proto : nat := 1.
Definition function_proto : nat := 2.
Definition base (p : option nat) : obj := mkobj [] p None.
Definition mem0 : mem :=
  mkmem [] [base (Some 1); base None; base (Some 1); base (Some 1); base (Some 1); base (Some 1)].

(* jsi_SetPrototypeOfCmd, jsiProto.c 569-585 (Object.setPrototypeOf; not called by the modelled programs): an
   object without properties passes on its own prototype instead of itself.  Not modelled: the prototype is a
   copy of the value (Jsi_ValueDup), so Jsi_ValueInstanceOf, which compares pointers to values, then
   answers false. *)
Definition set_prototype_of (m : mem) (v a : V) : option mem :=
  match v, a with
  | VObj x, VObj y =>
      let p := if negb (length (props (getobj m y)) =? 0) && negb (Nat.eqb y x) then Some y else proto (getobj m y) in
      Some (mkmem (cells m) (upd (objs m) x (mkobj (props (getobj m x)) p (fn (getobj m x)))))
  | _, _ => None
  end.

(** ** Run-time operations *)

(* A stack slot: a value, a reference to a cell, or a string pushed by OP_PUSHSTR *)
Inductive slot := SVal (v : V) | SRef (c : nat) | SKey (k : name).
(* jsiVarDeref, jsiEval.c 205-218: the value a slot stands for now *)
Definition deref (m : mem) (s : slot) : V :=
  match s with SVal v => v | SRef c => cell m c | SKey _ => vundef end.

(* jsi_ScopeChainObjLookupUni, jsiValue.c 1226-1236: the last scope first *)
Fixpoint find_var (m : mem) (rchain : list nat) (x : name) : option nat :=
  match rchain with
  | [] => None
  | a :: r => match own m a x with Some c => Some c | None => find_var m r x end
  end.

(* jsiPushVar, jsiEval.c 858-911: the current scope, then the chain; if there is no such variable it
   is made, undefined, in the first scope of the chain *)
Definition push_var (m : mem) (scope : list nat) (cur : nat) (x : name) : nat * mem :=
  match own m cur x with
  | Some c => (c, m)
  | None =>
      match find_var m (rev scope) x with
      | Some c => (c, m)
      | None =>
          let '(c, m1) := new_cell m vundef in
          (c, insert m1 (hd cur scope) x c)
      end
  end.

(* jsiPushFunc, jsiEval.c 913-948: the closure's scope is the chain and the current scope
   (jsi_ScopeChainDupNext, jsiValue.c 1238-1260); a new object becomes its property "prototype" *)
Definition push_func (m : mem) (scope : list nat) (cur : nat) (f : fundef) : V * mem :=
  let '(a, m1) := new_obj m (mkobj [] (Some function_proto) (Some (f, scope ++ [cur]))) in
  let '(p, m2) := new_obj m1 (mkobj [] (Some object_proto) None) in
  let '(c, m3) := new_cell m2 (VObj p) in
  (VObj a, insert m3 a prototype c).

(* Jsi_ValueToObject, jsiValue.c 698-737, as used by OP_CHTHIS *)
Definition to_object (m : mem) (v : V) : option (V * mem) :=
  match v with
  | VObj a => Some (v, m)
  | VPrim p =>
      match wrapper PS p with
      | None => None
      | Some pr => let '(a, m') := new_obj m (mkobj [] (Some pr) None) in Some (VObj a, m')
      end
  end.

(* jsiEvalSubscript, jsiEval.c 950-1031 (right_val): the object, or what a wrapper of the primitive
   inherits (the wrapper itself has no properties and is not made here) *)
Definition subscript (m : mem) (v : V) (k : name) : option V :=
  match v with
  | VObj a => Some (match get_prop m a k with Some c => cell m c | None => vundef end)
  | VPrim p =>
      match wrapper PS p with
      | None => None
      | Some pr => Some (match get_prop m pr k with Some c => cell m c | None => vundef end)
      end
  end.

(* OP_ASSIGN with a member, jsiEval.c 1305-1316, and jsi_ValueObjKeyAssign 1068-1108: a new cell
   becomes the own property *)
Definition assign_mem (m : mem) (o : V) (k : name) (v : V) : option mem :=
  match o with
  | VObj a => if Nat.eqb k prototype then None
              else let '(c, m1) := new_cell m v in Some (insert m1 a k c)
  | VPrim _ => None
  end.

(* jsi_ObjNewObj, jsiObj.c 666-707 *)
Fixpoint put_items (m : mem) (a : nat) (kvs : list (name * V)) : mem :=
  match kvs with
  | [] => m
  | (k, v) :: r => let '(c, m1) := new_cell m v in put_items (insert m1 a k c) a r
  end.
Definition make_object (m : mem) (kvs : list (name * V)) : V * mem :=
  let '(a, m1) := new_obj m (mkobj [] (Some object_proto) None) in
  (VObj a, put_items m1 a kvs).

(* Jsi_ValueNewArrayObj in jsiEvalFunction, jsiEval.c 824: each argument is copied to a new cell *)
Fixpoint new_cells (m : mem) (vs : list V) : list nat * mem :=
  match vs with
  | [] => ([], m)
  | v :: r => let '(c, m1) := new_cell m v in let '(cs, m2) := new_cells m1 r in (c :: cs, m2)
  end.
(* jsi_SharedArgs, jsiProto.c 109-166: parameter i is the cell of argument i, or a new undefined one *)
Fixpoint bind_params (m : mem) (a : nat) (ps : list name) (cs : list nat) : mem :=
  match ps with
  | [] => m
  | x :: ps' =>
      match cs with
      | c :: cs' => bind_params (insert m a x c) a ps' cs'
      | [] => let '(c, m1) := new_cell m vundef in bind_params (insert m1 a x c) a ps' []
      end
  end.
(* jsi_InitLocalVar, jsiFunc.c 619-632 *)
Fixpoint bind_locals (m : mem) (a : nat) (xs : list name) : mem :=
  match xs with
  | [] => m
  | x :: r => let '(c, m1) := new_cell m vundef in bind_locals (insert m1 a x c) a r
  end.

(* jsiFunctionSubCall, jsiEval.c 778-793: the object that [new] makes; Jsi_ValueObjLookup of
   "prototype" looks at own properties only *)
Definition new_this (m : mem) (a : nat) : V * mem :=
  let pr := match own m a prototype with
            | Some c => match cell m c with VObj p => p | VPrim _ => object_proto end
            | None => object_proto
            end in
  let '(n, m1) := new_obj m (mkobj [] (Some pr) None) in (VObj n, m1).

(* jsiEval.c 1131 *)
Definition too_deep (d : nat) : bool :=
  match max_depth PS with Some n => (0 <? n) && (n <? d) | None => false end.

(* How an activation ends: a value (OP_RET, or undefined at the end of the code), an error, no fuel
   left, or something that the model leaves open ([Open]: popping an empty stack, or [new] of an
   arrow function, which overwrites the caller's [this]) *)
Inductive outcome := Done (v : V) (m : mem) (th : nat -> V) | Fail (m : mem) | NoFuel | Open.

Definition set_th (th : nat -> V) (i : nat) (v : V) : nat -> V := fun j => if Nat.eqb j i then v else th j.

(* the keys and values on the stack, top first *)
Fixpoint take_items (m : mem) (n : nat) (s : list slot) : option (list (name * V) * list slot) :=
  match n with
  | O => Some ([], s)
  | S n' =>
      match s with
      | v :: SKey k :: r =>
          match take_items m n' r with
          | Some (kvs, r') => Some (kvs ++ [(k, deref m v)], r')
          | None => None
          end
      | _ => None
      end
  end.

Definition fetch (C : code) (i : Z) : option instr :=
  if (i <? 0)%Z then None else nth_error C (Z.to_nat i).

(* jsiEvalFunction 816-855, jsiFunctionSubCall 720-814, jsi_FuncCallSub jsiProto.c 169-272, up to
   jsi_evalcode: the function, its scope object, [this], the memory and the receivers at entry.
   [idx]: the stack position of the callee; [this]: that of the calling activation. *)
Inductive entry := EnterFail (m : mem) | EnterOpen | Enter (f : fundef) (scope : list nat) (cur : nat) (this : V) (m : mem) (th : nat -> V).
Definition enter (isnew : bool) (m : mem) (th : nat -> V) (idx : nat) (this callee : V) (vs : list V) : entry :=
  let '(cs, m1) := new_cells m vs in
  let '(sa, m2) := new_obj m1 (mkobj [] None None) in              (* args, 824 *)
  match callee with
  | VPrim _ => EnterFail m2                                        (* 736-741 *)
  | VObj a =>
      match fn (getobj m2 a) with
      | None => EnterFail m2
      | Some (f, scope) =>
          if is_arrow f && isnew then EnterOpen else
          let '(this1, th1) :=                                     (* 826-837 *)
            if is_arrow f then (this, th)
            else match th idx with
                 | VObj _ => (th idx, set_th th idx vundef)
                 | VPrim _ => (VObj glob, th)
                 end in
          let '(this2, m3) := if isnew then new_this m2 a else (this1, m2) in
          let m4 := bind_params m3 sa (params f) cs in
          if args_bad PS (params f) vs then EnterFail m4
          else Enter f scope sa this2 (bind_locals m4 sa (locals f)) th1
      end
  end.

(** ** The interpreter loop: jsiEvalCodeSub, jsiEval.c 1113-2135, with jsi_evalcode 2196-2245.
    [step] carries out the instruction at [i]; [rec] continues, in this activation or in a new one.
    interp->framePtr->Sp is [length s]. *)
Definition step (rec : code -> list nat -> nat -> V -> nat -> Z -> list slot -> (nat -> V) -> mem -> outcome)
             (C : code) (scope : list nat) (cur : nat) (this : V) (d : nat)
             (i : Z) (s : list slot) (th : nat -> V) (m : mem) : outcome :=
    let go i' s' th' m' := rec C scope cur this d i' s' th' m' in
    let next s' m' := go (i + 1)%Z s' th m' in
    let call (isnew : bool) (k : nat) :=
      if length s <? S k then Open else
      let vs := rev (map (deref m) (firstn k s)) in
      let r := skipn (S k) s in
      match enter isnew m th (length r) this (deref m (nth k s (SKey 0))) vs with
      | EnterFail m' => Fail m'
      | EnterOpen => Open
      | Enter f sc sa t m' th' =>
          if too_deep (S d) then Fail m' else
          match rec (comp_s (body f)) sc sa t (S d) 0%Z s th' m' with
          | Done v m2 th2 =>
              let v' := match v with VObj _ => v | VPrim _ => if isnew then t else v end in  (* 802-808 *)
              go (i + 1)%Z (SVal v' :: r) th2 m2
          | o => o
          end
      end in
    match fetch C i with
    | None => if (zlen C <=? i)%Z then Done vundef m th else Open        (* 2232-2236 *)
    | Some ins =>
      match ins with
      | INop => next s m
      | IPush p => next (SVal (VPrim p) :: s) m
      | IPushVar x => let '(c, m') := push_var m scope cur x in next (SRef c :: s) m'
      | IPushThis => next (SVal this :: s) m                             (* 1341-1351 *)
      | IPushStr k => next (SKey k :: s) m
      | IPushFun f => let '(v, m') := push_func m scope cur f in next (SVal v :: s) m'
      | IPop => match s with _ :: r => next r m | [] => Open end
      | IUn o => match s with
                 | a :: r => match un_sem PS o (deref m a) with Some v => next (SVal v :: r) m | None => Fail m end
                 | _ => Open end
      | IBin o => match s with
                  | b :: a :: r => match bin_sem PS o (deref m a) (deref m b) with
                                   | Some v => next (SVal v :: r) m | None => Fail m end
                  | _ => Open end
      | IAssign => match s with                                          (* 1296-1303, jsiValueAssign 150-187 *)
                   | b :: SRef c :: r => next (SRef c :: r) (set_cell m c (deref m b))
                   | _ => Open end
      | IAssignMem => match s with                                       (* 1304-1316 *)
                      | b :: SKey k :: o :: r =>
                          match assign_mem m (deref m o) k (deref m b) with
                          | Some m' => next (SVal (deref m b) :: r) m'
                          | None => Fail m end
                      | _ => Open end
      | ISub => match s with                                             (* 1286-1292 *)
                | SKey k :: o :: r =>
                    match subscript m (deref m o) k with
                    | Some v => next (SVal v :: r) m
                    | None => Fail m end
                | _ => Open end
      | IObject k => match take_items m k s with                         (* 1913-1923 *)
                     | Some (kvs, r) => let '(v, m') := make_object m kvs in next (SVal v :: r) m'
                     | None => Open end
      | IInst => match s with                                            (* 1759-1766 *)
                 | b :: a :: r => next (SVal (VPrim (vbool PS (instance_of m (deref m a) (deref m b)))) :: r) m
                 | _ => Open end
      | IChthis false => next s m                                        (* 1362-1378 *)
      | IChthis true => match s with
                        | k :: o :: r =>
                            match to_object m (deref m o) with
                            | Some (v, m') => go (i + 1)%Z s (set_th th (length r) v) m'
                            | None => Fail m end
                        | _ => Open end
      | IFcall k => call false k                                         (* 1265-1285 *)
      | INewFcall k => call true k
      | IJmp off => go (i + off)%Z s th m                                (* 1782-1817 *)
      | IJfalse off => match s with                                      (* 1767-1778 *)
                       | a :: r => go (if truth PS (deref m a) then i + 1 else i + off)%Z r th m
                       | _ => Open end
      | IJfalseNp off => match s with
                         | a :: r => go (if truth PS (deref m a) then i + 1 else i + off)%Z (SVal (deref m a) :: r) th m
                         | _ => Open end
      | IJtrueNp off => match s with
                        | a :: r => go (if truth PS (deref m a) then i + off else i + 1)%Z (SVal (deref m a) :: r) th m
                        | _ => Open end
      | IRet false => Done vundef m th                                   (* 1855-1878 *)
      | IRet true => match s with a :: r => Done (deref m a) m th | [] => Open end
      end
    end.

(* One unit of fuel per instruction *)
Fixpoint run (n : nat) (C : code) (scope : list nat) (cur : nat) (this : V) (d : nat)
             (i : Z) (s : list slot) (th : nat -> V) (m : mem) : outcome :=
  match n with
  | O => NoFuel
  | S n' => step (run n') C scope cur this d i s th m
  end.


(* Jsi_EvalString at the top level, jsiEval.c 2680: empty chain, global scope, [this] the global
   object, level 1; in the memory and with the receivers that earlier scripts have left *)
Definition run_more (n : nat) (p : stmt) (th : nat -> V) (m : mem) : outcome :=
  run n (comp_s p) [] glob (VObj glob) 1 0%Z [] th m.
Definition th0 : nat -> V := fun _ => vundef.
Definition run_program (n : nat) (p : stmt) : outcome := run_more n p th0 mem0.
End Fn.
