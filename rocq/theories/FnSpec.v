(** * Specification: what a program with functions and objects means
    A definitional interpreter that works on the syntax tree: no code, no stack, no jumps, no array of
    receivers.  Only the types of values, syntax and memory come from FnModel.v.

    The interpreter has two modes.  [late = false] is the order of evaluation of JavaScript: a variable
    that occurs as an operand is read at once.  [late = true] differs in one thing: an operand that is a
    bare variable (or an assignment to one) is read only when the operator, call or assignment it
    belongs to is carried out, after all its operands have been evaluated. *)
Require Import ZArith List Bool Lia.
Import ListNotations.
Require Import Verif.FnModel.
Local Open Scope nat_scope.

Section Spec.
Context {PS : psys}.
Notation V := (value (prim PS)).
Notation vundef := (VPrim (undef PS)).
Notation mem := (@mem PS).
Notation expr := (@expr PS).
Notation exprs := (@exprs PS).
Notation items := (@items PS).
Notation stmt := (@stmt PS).
Notation fundef := (@fundef PS).
Notation obj := (@obj PS).

(** ** Memory *)
Definition readc (m : mem) (c : nat) : V := match nth_error (cells m) c with Some v => v | None => vundef end.
Definition writec (m : mem) (c : nat) (v : V) : mem :=
  mkmem (if c <? length (cells m) then firstn c (cells m) ++ v :: skipn (S c) (cells m) else cells m) (objs m).
Definition add_cells (m : mem) (vs : list V) : mem := mkmem (cells m ++ vs) (objs m).
Definition add_obj (m : mem) (o : obj) : mem := mkmem (cells m) (objs m ++ [o]).
Definition obj_at (m : mem) (a : nat) : option obj := nth_error (objs m) a.

(* the cell bound to [k] in a list of properties, if any *)
Fixpoint binding (k : name) (ps : list (name * nat)) : option nat :=
  match ps with
  | [] => None
  | kc :: r => if fst kc =? k then Some (snd kc) else binding k r
  end.
(* ... after [k] is bound to [c] *)
Definition rebind (ps : list (name * nat)) (kc : name * nat) : list (name * nat) :=
  match binding (fst kc) ps with
  | Some _ => map (fun p => if fst p =? fst kc then kc else p) ps
  | None => ps ++ [kc]
  end.
Definition own_cell (m : mem) (a : nat) (k : name) : option nat :=
  match obj_at m a with Some o => binding k (props o) | None => None end.
Definition set_prop (m : mem) (a : nat) (k : name) (v : V) : mem :=
  match obj_at m a with
  | Some o =>
      mkmem (cells m ++ [v])
            (firstn a (objs m) ++ mkobj (rebind (props o) (k, length (cells m))) (proto o) (fn o) :: skipn (S a) (objs m))
  | None => add_cells m [v]
  end.

(** The objects met from [a] along the prototype links: [a] itself first.  ([n] bounds the length.) *)
Fixpoint chain (n : nat) (m : mem) (a : nat) : list nat :=
  match n with
  | O => []
  | S n' => a :: match obj_at m a with
                 | Some o => match proto o with Some p => chain n' m p | None => [] end
                 | None => [] end
  end.
(** the first of the objects [as_] that has a property [k] *)
Fixpoint first_with (m : mem) (k : name) (as_ : list nat) : option nat :=
  match as_ with
  | [] => None
  | a :: r => match own_cell m a k with Some c => Some c | None => first_with m k r end
  end.
(* the value of property [k] of object [a], own or inherited; undefined if there is none *)
Definition get (m : mem) (a : nat) (k : name) : V :=
  match first_with m k (chain (S (length (objs m))) m a) with Some c => readc m c | None => vundef end.
(* is the value of property "prototype" of function [b] among the prototypes of [a]? *)
Definition inst (m : mem) (v f : V) : bool :=
  match v, f with
  | VObj a, VObj b =>
      match obj_at m b with
      | Some (mkobj _ _ (Some _)) =>
          match own_cell m b prototype with
          | Some c => match readc m c with
                      | VObj p => existsb (Nat.eqb p) (tl (chain (S (S (length (objs m)))) m a))
                      | VPrim _ => false
                      end
          | None => false
          end
      | _ => false
      end
  | _, _ => false
  end.

(** ** Declarations: the variables of a function are the names declared in its body, each once *)
Fixpoint decls_e (e : expr) : list name :=
  match e with
  | ECon _ | EVar _ | EThis => []
  | EAsg _ e | EUn _ e | EVoid e | EGet e _ | EInst _ e => decls_e e
  | EBin _ a b | EAnd a b | EOr a b | EComma a b | ESet a _ b => decls_e a ++ decls_e b
  | ECond a b c => decls_e a ++ decls_e b ++ decls_e c
  | EFun f => decls_f f
  | ECall e es | EMeth e _ es | ENew e es => decls_e e ++ decls_es es
  | EObj is => decls_is is
  end
with decls_es (es : exprs) : list name :=
  match es with Enil => [] | Econs e r => decls_e e ++ decls_es r end
with decls_is (is : items) : list name :=
  match is with Inil => [] | Icons _ e r => decls_e e ++ decls_is r end
with decls_s (s : stmt) : list name :=
  match s with
  | SSkip | SRet => []
  | SExpr e | SReturn e => decls_e e
  | SSeq a b => decls_s a ++ decls_s b
  | SDecl x => [x]
  | SVar x e => decls_e e ++ [x]
  | SFun x _ => [x]
  | SIf c a | SWhile c a => decls_e c ++ decls_s a
  | SIfElse c a b => decls_e c ++ decls_s a ++ decls_s b
  end
(* jsish: what an arrow function declares belongs to the function around it *)
with decls_f (f : fundef) : list name :=
  match f with Fun true _ b => decls_s b | Fun false _ _ => [] end.
Fixpoint once (seen xs : list name) : list name :=
  match xs with
  | [] => []
  | x :: r => if existsb (Nat.eqb x) seen then once seen r else x :: once (x :: seen) r
  end.
Definition fun_locals (f : fundef) : list name :=
  match f with Fun true _ _ => [] | Fun false _ b => once [] (decls_s b) end.

(** ** Results *)
Inductive res (A : Type) :=
| Ok (a : A) (m : mem)
| Err (m : mem)        (* an error ended the program *)
| Out                  (* more fuel is needed *)
| Unk.                 (* not specified here: an arrow function called as a method or with new *)
Arguments Ok {A}. Arguments Err {A}. Arguments Out {A}. Arguments Unk {A}.
Definition bind {A B} (r : res A) (k : A -> mem -> res B) : res B :=
  match r with Ok a m => k a m | Err m => Err m | Out => Out | Unk => Unk end.

Inductive operand := OVal (v : V) | ORef (c : nat).
Definition val (m : mem) (o : operand) : V := match o with OVal v => v | ORef c => readc m c end.

(* where code runs: the scopes (objects), innermost first; [this]; the depth of calls *)
Record ctx := mkctx { env : list nat; this_ : V; depth : nat }.

(* the cell of variable [x]: in the innermost scope that has it, else a new one in the outermost *)
Definition resolve (m : mem) (en : list nat) (x : name) : nat * mem :=
  match first_with m x en with
  | Some c => (c, m)
  | None => (length (cells m), set_prop m (last en 0) x vundef)
  end.

(* a new function, and the object that is its property "prototype" *)
Definition closure (m : mem) (en : list nat) (f : fundef) : V * mem :=
  let a := length (objs m) in
  (VObj a,
   mkmem (cells m ++ [VObj (S a)])
         (objs m ++ [mkobj [(prototype, length (cells m))] (Some function_proto) (Some (f, rev en));
                     mkobj [] (Some object_proto) None])).

(* the object that a method called on [v] sees as [this]; None: an error *)
Definition receiver (m : mem) (v : V) : option (V * mem) :=
  match v with
  | VObj _ => Some (v, m)
  | VPrim p => match wrapper PS p with
               | Some pr => Some (VObj (length (objs m)), add_obj m (mkobj [] (Some pr) None))
               | None => None
               end
  end.
Definition member (m : mem) (v : V) (k : name) : option V :=
  match v with
  | VObj a => Some (get m a k)
  | VPrim p => match wrapper PS p with Some pr => Some (get m pr k) | None => None end
  end.
Definition set_member (m : mem) (o : V) (k : name) (v : V) : option mem :=
  match o with
  | VObj a => if k =? prototype then None else Some (set_prop m a k v)
  | VPrim _ => None
  end.
(* an object with the properties [kvs]; a later value of the same key wins *)
Definition literal (m : mem) (kvs : list (name * V)) : V * mem :=
  (VObj (length (objs m)),
   fold_left (fun mm kv => set_prop mm (length (objs m)) (fst kv) (snd kv)) kvs
             (add_obj m (mkobj [] (Some object_proto) None))).

Section Mode.
Variable late : bool.
Definition operand_of (m : mem) (c : nat) : operand := if late then ORef c else OVal (readc m c).

Inductive completion := Normal | Return (v : V).

Section Body.
(* how to call: [new]?, receiver, function, arguments, the caller's [this] and depth *)
Variable callf : bool -> option V -> V -> list V -> V -> nat -> mem -> res V.
Variable loops : nat.   (* how often a loop may go round *)

Fixpoint eval (c : ctx) (e : expr) (m : mem) {struct e} : res operand :=
  match e with
  | ECon p => Ok (OVal (VPrim p)) m
  | EVar x => let '(a, m1) := resolve m (env c) x in Ok (operand_of m1 a) m1
  | EThis => Ok (OVal (this_ c)) m
  | EAsg x e =>
      let '(a, m1) := resolve m (env c) x in
      bind (eval c e m1) (fun o m2 => let m3 := writec m2 a (val m2 o) in Ok (operand_of m3 a) m3)
  | EUn u e =>
      bind (eval c e m) (fun o m1 => match un_sem PS u (val m1 o) with Some v => Ok (OVal v) m1 | None => Err m1 end)
  | EBin b x y =>
      bind (eval c x m) (fun o1 m1 => bind (eval c y m1) (fun o2 m2 =>
        match bin_sem PS b (val m2 o1) (val m2 o2) with Some v => Ok (OVal v) m2 | None => Err m2 end))
  | EAnd x y =>
      bind (eval c x m) (fun o m1 => if truth PS (val m1 o) then eval c y m1 else Ok (OVal (val m1 o)) m1)
  | EOr x y =>
      bind (eval c x m) (fun o m1 => if truth PS (val m1 o) then Ok (OVal (val m1 o)) m1 else eval c y m1)
  | ECond x y z =>
      bind (eval c x m) (fun o m1 => if truth PS (val m1 o) then eval c y m1 else eval c z m1)
  | EComma x y => bind (eval c x m) (fun _ m1 => eval c y m1)
  | EVoid x => bind (eval c x m) (fun _ m1 => Ok (OVal vundef) m1)
  | EFun f => let '(v, m1) := closure m (env c) f in Ok (OVal v) m1
  | ECall e es =>
      bind (eval c e m) (fun o m1 => bind (evals c es m1) (fun os m2 =>
        bind (callf false None (val m2 o) (map (val m2) os) (this_ c) (depth c) m2) (fun v m3 => Ok (OVal v) m3)))
  | EMeth e k es =>
      bind (eval c e m) (fun o m1 =>
        match receiver m1 (val m1 o) with
        | None => Err m1
        | Some (t, m2) =>
            match member m2 (val m1 o) k with
            | None => Err m2
            | Some f =>
                bind (evals c es m2) (fun os m3 =>
                  bind (callf false (Some t) f (map (val m3) os) (this_ c) (depth c) m3) (fun v m4 => Ok (OVal v) m4))
            end
        end)
  | ENew e es =>
      bind (eval c e m) (fun o m1 => bind (evals c es m1) (fun os m2 =>
        bind (callf true None (val m2 o) (map (val m2) os) (this_ c) (depth c) m2) (fun v m3 => Ok (OVal v) m3)))
  | EGet e k =>
      bind (eval c e m) (fun o m1 => match member m1 (val m1 o) k with Some v => Ok (OVal v) m1 | None => Err m1 end)
  | ESet e k x =>
      bind (eval c e m) (fun o m1 => bind (eval c x m1) (fun o2 m2 =>
        match set_member m2 (val m2 o) k (val m2 o2) with Some m3 => Ok (OVal (val m2 o2)) m3 | None => Err m2 end))
  | EObj is =>
      bind (evali c is m) (fun kos m1 =>
        let '(v, m2) := literal m1 (map (fun ko => (fst ko, val m1 (snd ko))) kos) in Ok (OVal v) m2)
  | EInst x e =>
      let '(a, m1) := resolve m (env c) x in
      let o := operand_of m1 a in
      bind (eval c e m1) (fun o2 m2 => Ok (OVal (VPrim (vbool PS (inst m2 (val m2 o) (val m2 o2))))) m2)
  end
with evals (c : ctx) (es : exprs) (m : mem) {struct es} : res (list operand) :=
  match es with
  | Enil => Ok [] m
  | Econs e r => bind (eval c e m) (fun o m1 => bind (evals c r m1) (fun os m2 => Ok (o :: os) m2))
  end
with evali (c : ctx) (is : items) (m : mem) {struct is} : res (list (name * operand)) :=
  match is with
  | Inil => Ok [] m
  | Icons k e r => bind (eval c e m) (fun o m1 => bind (evali c r m1) (fun os m2 => Ok ((k, o) :: os) m2))
  end.

Fixpoint loop (n : nat) (cond : mem -> res bool) (body : mem -> res completion) (m : mem) : res completion :=
  match n with
  | O => Out
  | S n' =>
      bind (cond m) (fun b m1 =>
        if b then bind (body m1) (fun k m2 => match k with Normal => loop n' cond body m2 | Return v => Ok (Return v) m2 end)
        else Ok Normal m1)
  end.

Definition test (c : ctx) (e : expr) (m : mem) : res bool :=
  bind (eval c e m) (fun o m1 => Ok (truth PS (val m1 o)) m1).

Fixpoint exec (c : ctx) (s : stmt) (m : mem) {struct s} : res completion :=
  match s with
  | SSkip => Ok Normal m
  | SExpr e => bind (eval c e m) (fun _ m1 => Ok Normal m1)
  | SSeq a b => bind (exec c a m) (fun k m1 => match k with Normal => exec c b m1 | Return v => Ok (Return v) m1 end)
  (* jsish: a declaration without a value assigns undefined *)
  | SDecl x => let '(a, m1) := resolve m (env c) x in Ok Normal (writec m1 a vundef)
  | SVar x e =>
      let '(a, m1) := resolve m (env c) x in
      bind (eval c e m1) (fun o m2 => Ok Normal (writec m2 a (val m2 o)))
  | SFun x f =>
      let '(a, m1) := resolve m (env c) x in
      let '(v, m2) := closure m1 (env c) f in Ok Normal (writec m2 a v)
  | SIf e a => bind (test c e m) (fun (b : bool) m1 => if b then exec c a m1 else Ok Normal m1)
  | SIfElse e a b => bind (test c e m) (fun (t : bool) m1 => if t then exec c a m1 else exec c b m1)
  | SWhile e a => loop loops (test c e) (exec c a) m
  | SRet => Ok (Return vundef) m
  | SReturn e => bind (eval c e m) (fun o m1 => Ok (Return (val m1 o)) m1)
  end.
End Body.

(* Memory in which the parameters of [f] are bound to the arguments, missing ones to undefined, in a new
   scope object with number [sa]; then with the local variables too, undefined. *)
Definition with_params (m : mem) (base sa : nat) (f : fundef) (vs : list V) : mem :=
  let m1 := add_cells m (repeat vundef (length (params f) - length vs)) in
  mkmem (cells m1)
        (firstn sa (objs m1) ++
         mkobj (fold_left rebind (combine (params f) (seq base (length (params f)))) []) None None ::
         skipn (S sa) (objs m1)).
Definition with_locals (m : mem) (sa : nat) (f : fundef) : mem :=
  fold_left (fun mm x => set_prop mm sa x vundef) (fun_locals f) m.

(* the prototype of what [new] makes: the property "prototype" of the function *)
Definition proto_for (m : mem) (a : nat) : nat :=
  match own_cell m a prototype with
  | Some c => match readc m c with VObj p => p | VPrim _ => object_proto end
  | None => object_proto
  end.

Fixpoint call (n : nat) (isnew : bool) (rcv : option V) (callee : V) (vs : list V) (caller_this : V) (d : nat) (m : mem) : res V :=
  match n with
  | O => Out
  | S n' =>
      let m1 := add_obj (add_cells m vs) (mkobj [] None None) in
      match callee with
      | VPrim _ => Err m1
      | VObj a =>
          match obj_at m1 a with
          | Some (mkobj _ _ (Some (f, sc))) =>
              if is_arrow f && (isnew || match rcv with Some _ => true | None => false end) then Unk else
              let t := if is_arrow f then caller_this
                       else if isnew then VObj (length (objs m1))
                       else match rcv with Some r => r | None => VObj glob end in
              let m2 := if isnew then add_obj m1 (mkobj [] (Some (proto_for m1 a)) None) else m1 in
              let m3 := with_params m2 (length (cells m)) (length (objs m)) f vs in
              if args_bad PS (params f) vs then Err m3 else
              let m4 := with_locals m3 (length (objs m)) f in
              (* interp.maxDepth *)
              if match max_depth PS with Some k => (0 <? k) && (k <=? d) | None => false end then Err m4 else
              bind (exec (call n') n' (mkctx (length (objs m) :: rev sc) t (S d)) (body f) m4)
                   (fun k m5 =>
                      let v := match k with Return v => v | Normal => vundef end in
                      Ok (if isnew then match v with VObj _ => v | VPrim _ => t end else v) m5)
          | _ => Err m1
          end
      end
  end.

(* a whole program: the global scope is object 0, which is also [this] *)
Definition program (n : nat) (p : stmt) : res V :=
  bind (exec (call n) n (mkctx [0] (VObj 0) 1) p mem0)
       (fun k m => Ok (match k with Return v => v | Normal => vundef end) m).
End Mode.
End Spec.
Arguments Ok {PS A}. Arguments Err {PS A}. Arguments Out {PS A}. Arguments Unk {PS A}.
