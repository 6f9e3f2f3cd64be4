(** * Model of function calls: argument and return types, defaults, call, apply and bind (jsiFunc.c, jsiProto.c, jsiPstate.c, parser.y).

    Script functions; of builtin functions only what bind makes.  addargs is 0: it is set for builtin functions only
    (jsiValue.c:1109-1113).  Checks while parsing are left out.  Arguments lists without holes. *)
From Coq Require Import ZArith List Bool.
Import ListNotations.
Require Import Verif.StrModel.
Local Open Scope Z_scope.

(** Jsi_Value: vt, and ot and isarrlist of an object; which one it is. *)
Inductive kind := KUndef | KBool | KNum | KStr | KNull | KObject | KArray | KFunction | KRegexp | KIter | KUser | KBoolObj | KNumObj | KStrObj.
Record value := mkV { vk : kind; vid : Z }.
Definition undefined : value := mkV KUndef 0.
Definition is_undef (v : value) : bool := match vk v with KUndef => true | _ => false end.
Definition is_null (v : value) : bool := match vk v with KNull => true | _ => false end.

(** Types as they are written (parser.y:524-537). *)
Inductive tname := Tundefined | Tboolean | Tnumber | Tstring | Tobject | Tarray | Tfunction | Tregexp | Titerobj | Tuserobj | Tnull | Tany | Tvoid.
(** Jsi_ttype (jsi.h:113-127). *)
Definition bit (t : tname) : Z :=
  match t with
  | Tundefined => 1 | Tboolean => 2 | Tnumber => 4 | Tstring => 8 | Tobject => 16 | Tarray => 32 | Tfunction => 64
  | Tregexp => 128 | Titerobj => 256 | Tuserobj => 512 | Tnull => 1024 | Tany => 2048 | Tvoid => 4096
  end.
Definition has_bit (typ : Z) (t : tname) : bool := negb (Z.land typ (bit t) =? 0).
(** argtype (parser.y:547-553): pstate->argType |= .... *)
Definition mask (l : list tname) : Z := fold_left (fun m t => Z.lor m (bit t)) l 0.

(** argdefault (parser.y:557-565). *)
Inductive dflt := DUndef | DVoid | DNum (z : Z) | DBool (z : Z) | DNull | DStr (z : Z).
Definition dvalue (d : dflt) : value :=
  match d with DUndef | DVoid => undefined | DNum z => mkV KNum z | DBool z => mkV KBool z | DNull => mkV KNull 0 | DStr z => mkV KStr z end.
(** jsi_argInsert (jsiPstate.c:75-122): the type of the default is added. *)
Definition dtype (d : dflt) : Z :=
  match d with DNull => bit Tnull | DVoid => bit Tvoid | DUndef => 1 | DBool _ => 2 | DNum _ => 4 | DStr _ => 8 end.
Record param := mkP { pn : list tname; pd : option dflt }.
Definition ptype (p : param) : Z := Z.lor (mask (pn p)) (match pd p with Some d => dtype d | None => 0 end).

(** The options of the interpreter (jsiInterp.c:113-143): noCheck, noError, typeCheck.noundef, typeCheck.noreturn, typeWarnMax;
    typeMismatchCnt. *)
Record cfg := mkC { no_check : bool; no_error : bool; noundef : bool; noreturn : bool; warn_max : Z; count : Z }.
(** jsi_TypeMismatch (jsiUtils.c:97-106). *)
Definition type_mismatch (c : cfg) : cfg :=
  let n := count c + 1 in
  if warn_max c <=? 0 then mkC (no_check c) (no_error c) (noundef c) (noreturn c) (warn_max c) n
  else if warn_max c <=? n then mkC (no_check c) (no_error c) false false (warn_max c) n
  else mkC (no_check c) (no_error c) (noundef c) (noreturn c) (warn_max c) n.
(** Jsi_LogType (jsiInt.h:262) outside of parsing: with noError a warning, which is no failure (jsiUtils.c:329). *)
Definition mismatch (c : cfg) : cfg * bool := (type_mismatch c, no_error c).

(** Jsi_ValueIsNumber and the others (jsiValue.c:386-464). *)
Definition is_kind (t : tname) (v : value) : bool :=
  match t, vk v with
  | Tundefined, KUndef | Tnumber, KNum | Tnumber, KNumObj | Tstring, KStr | Tstring, KStrObj | Tboolean, KBool | Tboolean, KBoolObj
  | Tarray, KArray | Tfunction, KFunction | Tregexp, KRegexp | Tuserobj, KUser | Titerobj, KIter | Tobject, KObject | Tnull, KNull => true
  | _, _ => false
  end.
(** jsi_ArgTypeCheck (jsiFunc.c:199-260); index 0 is the returned value. *)
Definition arg_type_check (c : cfg) (typ : Z) (arg : value) (index : Z) (isdefault : bool) : cfg * bool :=
  if no_check c then (c, true)
  else if is_undef arg && negb (noundef c) && (0 <? index) && negb isdefault && negb (has_bit typ Tundefined || has_bit typ Tany) then mismatch c
  else if typ <=? 0 then (c, true)
  else if has_bit typ Tany then (c, true)
  else if (index =? 0) && is_undef arg then (if has_bit typ Tvoid then (c, true) else mismatch c)
  else if isdefault && negb (index =? 0) && has_bit typ Tvoid && is_undef arg then (c, true)
  else if existsb (fun t => has_bit typ t && is_kind t arg)
            [Tundefined; Tnumber; Tstring; Tboolean; Tarray; Tfunction; Tregexp; Tuserobj; Titerobj; Tobject; Tnull] then (c, true)
  else mismatch c.

(** The values of variables and arguments. *)
Definition heap := list value.
Definition get (h : heap) (c : nat) : value := nth c h undefined.
Definition alloc (h : heap) (v : value) : heap * nat := (h ++ [v], length h).

(** A script function; its code is any function of this, the cells of the parameters and those of the arguments. *)
Record func := mkF { params : list param; varargs : bool; rtype : list tname;
  body : value -> list nat -> list nat -> heap -> heap * option value }.
(** firstDef (jsiPstate.c:108-111) and jsi_RunFuncCallCheck (jsiFunc.c:336-384). *)
Fixpoint before_default (l : list param) : nat :=
  match l with [] => O | p :: r => match pd p with Some _ => O | None => S (before_default r) end end.
Definition min_args (f : func) : nat := before_default (params f).
Definition call_check (c : cfg) (f : func) (argc : nat) : cfg * bool :=
  if no_check c then (c, true)
  else if varargs f then (if (min_args f <=? argc)%nat then (c, true) else mismatch c)
  else if ((argc <? min_args f)%nat || (length (params f) <? argc)%nat)%bool then mismatch c else (c, true).

(** jsi_SharedArgs (jsiProto.c:109-164), the loop over the parameters: the argument itself, a copy of the default, or undefined. *)
Fixpoint share (c : cfg) (rc : bool) (i : Z) (h : heap) (ps : list param) (args : list nat) : cfg * bool * heap * list nat :=
  match ps with
  | [] => (c, rc, h, [])
  | p :: r =>
      let '(c1, rc1) := match args, pd p with
                        | a :: _, _ => if rc then arg_type_check c (ptype p) (get h a) (i + 1) false else (c, rc)
                        | [], Some d => if rc then arg_type_check c (ptype p) (dvalue d) (i + 1) true else (c, rc)
                        | [], None => (c, rc)
                        end in
      let (h1, cell) := match args, pd p with
                        | a :: _, _ => (h, a)
                        | [], Some d => alloc h (dvalue d)
                        | [], None => alloc h undefined
                        end in
      let '(c2, rc2, h2, cells) := share c1 rc1 (i + 1) h1 r (tl args) in (c2, rc2, h2, cell :: cells)
  end.
Definition shared_args (c : cfg) (f : func) (h : heap) (args : list nat) : cfg * bool * heap * list nat :=
  let (c1, n) := call_check c f (length args) in
  let '(c2, rc, h2, cells) := share c1 true 0 h (params f) args in (c2, n && rc, h2, cells).

(** jsi_FuncCallSub (jsiProto.c:167-273) for a script function.  None: an error. *)
Definition call_sub (cons : bool) (c : cfg) (h : heap) (f : func) (this : value) (args : list nat) : cfg * heap * option value :=
  let '(c1, rc, h1, cells) := shared_args c f h args in
  if rc then
    match body f this cells args h1 with
    | (h2, None) => (c1, h2, None)
    | (h2, Some v) =>
        if negb cons && negb (mask (rtype f) =? 0) && negb (noreturn c1) then
          let (c2, ok) := arg_type_check c1 (mask (rtype f)) v 0 false in (c2, h2, if ok then Some v else None)
        else (c1, h2, Some v)
    end
  else (c1, h1, None).

(** ** call, apply, bind *)
(** A function value: a script function or one made by bind, with the number of its Jsi_FuncObj, its bindFunc and its bindArgs. *)
Inductive fval := FScript (f : func) | FBound (id : nat) (g : fval) (bargs : list nat).
(** linked: the bound functions whose Jsi_Func knows its Jsi_FuncObj (funcPtr->fobj). *)
Record world := mkW { wc : cfg; wh : heap; linked : list nat }.
Section Calls.
Context (to_object : value -> value) (top : value).
(** jsi_FuncCallSub; for a bound function jsi_FuncBindCall (jsiProto.c:275-306), which goes through Jsi_FunctionInvoke
    (jsiFunc.c:745-807); that does not set funcPtr->fobj. *)
Fixpoint func_call (w : world) (g : fval) (this : value) (args : list nat) : world * option value :=
  match g with
  | FScript f => let '(c, h, r) := call_sub false (wc w) (wh w) f this args in (mkW c h (linked w), r)
  | FBound id g' bargs =>
      if existsb (Nat.eqb id) (linked w) then
        let this' := match bargs with t :: _ => if is_null (get (wh w) t) then this else get (wh w) t | [] => this end in
        func_call w g' this' (tl bargs ++ args)
      else (w, None)
  end.
Definition link (w : world) (g : fval) : world :=
  match g with FScript _ => w | FBound id _ _ => mkW (wc w) (wh w) (id :: linked w) end.
(** g(args), as a method of the object this if there is one: jsiEvalFunction, jsiFunctionSubCall (jsiEval.c:756-800, 825-846). *)
Definition direct (w : world) (g : fval) (this : option value) (args : list nat) : world * option value :=
  func_call (link w g) g (match this with Some t => t | None => top end) args.
(** Function.call (jsiProto.c:327-355): args are those of call. *)
Definition call_this (w : world) (args : list nat) : value :=
  match args with
  | a :: _ => let v := get (wh w) a in if is_undef v || is_null v then to_object top else to_object v
  | [] => to_object top
  end.
Definition fn_call (w : world) (g : fval) (args : list nat) : world * option value :=
  func_call (link w g) g (call_this w args) (tl args).
(** Function.apply (jsiProto.c:447-485): the second argument, if there, is an array, given as its elements, or not. *)
Definition fn_apply (w : world) (g : fval) (args : list nat) (second : option (option (list nat))) : world * option value :=
  match second with
  | Some None => (w, None)
  | Some (Some l) => func_call w g (call_this w args) l
  | None => func_call w g (call_this w args) []
  end.
(** A function given to a builtin, such as sort or setTimeout: Jsi_FunctionInvoke. *)
Definition invoke (w : world) (g : fval) (this : value) (args : list nat) : world * option value := func_call w g this args.
End Calls.

(** ** types as text *)
Local Notation tx := (list Z).
Definition pipe : Z := 124.
(** jsi_typeName (jsiFunc.c:124-145): the names. *)
Definition name_of (t : tname) : tx :=
  match t with
  | Tundefined => [117;110;100;101;102;105;110;101;100] | Tboolean => [98;111;111;108;101;97;110] | Tnumber => [110;117;109;98;101;114]
  | Tstring => [115;116;114;105;110;103] | Tobject => [111;98;106;101;99;116] | Tarray => [97;114;114;97;121]
  | Tfunction => [102;117;110;99;116;105;111;110] | Tregexp => [114;101;103;101;120;112] | Titerobj => [105;116;101;114;111;98;106]
  | Tuserobj => [117;115;101;114;111;98;106] | Tnull => [110;117;108;108] | Tany => [97;110;121] | Tvoid => [118;111;105;100]
  end.
Definition order : list tname := [Tnumber; Tstring; Tboolean; Tarray; Tfunction; Tobject; Tregexp; Tuserobj; Titerobj; Tnull; Tundefined; Tvoid].
Fixpoint append_names (typ : Z) (i : Z) (l : list tname) : tx :=
  match l with
  | [] => []
  | t :: r => if has_bit typ t then (if i =? 0 then [] else [pipe]) ++ name_of t ++ append_names typ (i + 1) r else append_names typ i r
  end.
Definition type_name (typ : Z) : tx := if (typ <=? 0) || has_bit typ Tany then name_of Tany else append_names typ 0 order.
(** jsi_typeGet (jsiFunc.c:81-122) for one name: a switch on the first character, then comparisons; an unknown name is
    reported and gives 0. *)
Definition eq_tx (a b : tx) : bool := if list_eq_dec Z.eq_dec a b then true else false.
Definition pick (n : tx) (l : list tname) : Z := match find (fun t => eq_tx n (name_of t)) l with Some t => bit t | None => 0 end.
Definition type_get1 (n : tx) : Z :=
  match n with
  | [] => 0
  | c :: _ =>
      if c =? 98 then pick n [Tboolean] else if c =? 115 then pick n [Tstring] else if c =? 110 then pick n [Tnull; Tnumber]
      else if c =? 111 then pick n [Tobject] else if c =? 114 then pick n [Tregexp] else if c =? 102 then pick n [Tfunction]
      else if c =? 105 then pick n [Titerobj; Tuserobj; Tundefined] else if c =? 117 then pick n [Tuserobj; Tundefined]
      else if c =? 97 then pick n [Tarray; Tany] else if c =? 118 then pick n [Tvoid] else 0
  end.
Definition type_get (n : tx) : out Z :=
  if existsb (Z.eqb pipe) n then
    match split_str n [pipe] with
    | Done l => Done (fold_left (fun m x => Z.lor m (type_get1 x)) l 0)
    | Fail => Fail
    | Bad => Bad
    end
  else Done (type_get1 n).
