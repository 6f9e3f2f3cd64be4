(** * Specification: what can be read off the text of a program with functions *)
Require Import ZArith List Bool Lia.
Import ListNotations.
Require Import Verif.FnModel.
Local Open Scope nat_scope.

Section Static.
Context {PS : psys}.
Notation expr := (@expr PS).
Notation exprs := (@exprs PS).
Notation items := (@items PS).
Notation stmt := (@stmt PS).
Notation fundef := (@fundef PS).

Definition has (x : name) (xs : list name) : bool := existsb (Nat.eqb x) xs.

(** ** The functions in a text, at any depth *)
Fixpoint funs_e (e : expr) : list fundef :=
  match e with
  | ECon _ | EVar _ | EThis => []
  | EAsg _ e | EUn _ e | EVoid e | EGet e _ | EInst _ e => funs_e e
  | EBin _ a b | EAnd a b | EOr a b | EComma a b | ESet a _ b => funs_e a ++ funs_e b
  | ECond a b c => funs_e a ++ funs_e b ++ funs_e c
  | EFun f => funs_f f
  | ECall e es | EMeth e _ es | ENew e es => funs_e e ++ funs_es es
  | EObj is => funs_is is
  end
with funs_es (es : exprs) : list fundef :=
  match es with Enil => [] | Econs e r => funs_e e ++ funs_es r end
with funs_is (is : items) : list fundef :=
  match is with Inil => [] | Icons _ e r => funs_e e ++ funs_is r end
with funs_s (s : stmt) : list fundef :=
  match s with
  | SSkip | SRet | SDecl _ => []
  | SExpr e | SReturn e | SVar _ e => funs_e e
  | SSeq a b => funs_s a ++ funs_s b
  | SFun _ f => funs_f f
  | SIf c a | SWhile c a => funs_e c ++ funs_s a
  | SIfElse c a b => funs_e c ++ funs_s a ++ funs_s b
  end
with funs_f (f : fundef) : list fundef :=
  match f with Fun _ _ b => f :: funs_s b end.

(** ** The variables a text assigns, without the functions in it *)
Fixpoint asg_e (e : expr) : list name :=
  match e with
  | ECon _ | EVar _ | EThis | EFun _ => []
  | EAsg x e => x :: asg_e e
  | EUn _ e | EVoid e | EGet e _ | EInst _ e => asg_e e
  | EBin _ a b | EAnd a b | EOr a b | EComma a b | ESet a _ b => asg_e a ++ asg_e b
  | ECond a b c => asg_e a ++ asg_e b ++ asg_e c
  | ECall e es | EMeth e _ es | ENew e es => asg_e e ++ asg_es es
  | EObj is => asg_is is
  end
with asg_es (es : exprs) : list name :=
  match es with Enil => [] | Econs e r => asg_e e ++ asg_es r end
with asg_is (is : items) : list name :=
  match is with Inil => [] | Icons _ e r => asg_e e ++ asg_is r end.
Fixpoint asg_s (s : stmt) : list name :=
  match s with
  | SSkip | SRet => []
  | SDecl x | SFun x _ => [x]
  | SVar x e => x :: asg_e e
  | SExpr e | SReturn e => asg_e e
  | SSeq a b => asg_s a ++ asg_s b
  | SIf c a | SWhile c a => asg_e c ++ asg_s a
  | SIfElse c a b => asg_e c ++ asg_s a ++ asg_s b
  end.

(** ** Does a text call anything, without the functions in it? *)
Fixpoint calls_e (e : expr) : bool :=
  match e with
  | ECon _ | EVar _ | EThis | EFun _ => false
  | EAsg _ e | EUn _ e | EVoid e | EGet e _ | EInst _ e => calls_e e
  | EBin _ a b | EAnd a b | EOr a b | EComma a b | ESet a _ b => calls_e a || calls_e b
  | ECond a b c => calls_e a || calls_e b || calls_e c
  | ECall _ _ | EMeth _ _ _ | ENew _ _ => true
  | EObj is => calls_is is
  end
with calls_is (is : items) : bool :=
  match is with Inil => false | Icons _ e r => calls_e e || calls_is r end.
Fixpoint calls_es (es : exprs) : bool :=
  match es with Enil => false | Econs e r => calls_e e || calls_es r end.

(** ** Programs whose result does not depend on when variables are read *)

(* the variables that the value of an expression may still refer to *)
Fixpoint refs (e : expr) : list name :=
  match e with
  | EVar x | EAsg x _ => [x]
  | EAnd _ b | EOr _ b | EComma _ b => refs b
  | ECond _ a b => refs a ++ refs b
  | _ => []
  end.

Section In.
Variable own_vars : list name.     (* parameters and variables of the function this is in *)
Variable own_funs : list fundef.   (* the functions inside that function *)
Variable all_funs : list fundef.   (* the functions of the program *)

(* Variable [x] cannot change while a text runs that assigns [xs] and perhaps makes calls: the text does
   not assign it; and if there are calls, no function inside the one that owns [x] assigns it (no function at
   all, if [x] is not a variable of the function this is in). *)
Definition still (x : name) (xs : list name) (calls : bool) : bool :=
  negb (has x xs) &&
  (negb calls || forallb (fun f => negb (has x (asg_s (body f)))) (if has x own_vars then own_funs else all_funs)).
Definition stills (e : expr) (xs : list name) (calls : bool) : bool := forallb (fun x => still x xs calls) (refs e).

Fixpoint ord_e (e : expr) : bool :=
  match e with
  | ECon _ | EVar _ | EThis | EFun _ => true
  | EAsg _ e | EUn _ e | EVoid e | EGet e _ => ord_e e
  | EAnd a b | EOr a b | EComma a b => ord_e a && ord_e b
  | ECond a b c => ord_e a && ord_e b && ord_e c
  | EBin _ a b | ESet a _ b => ord_e a && ord_e b && stills a (asg_e b) (calls_e b)
  | ECall e es | ENew e es => ord_e e && ord_es es && stills e (asg_es es) (calls_es es)
  | EMeth e _ es => ord_e e && ord_es es
  | EObj is => ord_is is
  | EInst x e => ord_e e && still x (asg_e e) (calls_e e)
  end
with ord_es (es : exprs) : bool :=
  match es with Enil => true | Econs e r => ord_e e && ord_es r && stills e (asg_es r) (calls_es r) end
with ord_is (is : items) : bool :=
  match is with Inil => true | Icons _ e r => ord_e e && ord_is r && stills e (asg_is r) (calls_is r) end.
Fixpoint ord_s (s : stmt) : bool :=
  match s with
  | SSkip | SRet | SDecl _ | SFun _ _ => true
  | SExpr e | SReturn e | SVar _ e => ord_e e
  | SSeq a b => ord_s a && ord_s b
  | SIf c a | SWhile c a => ord_e c && ord_s a
  | SIfElse c a b => ord_e c && ord_s a && ord_s b
  end.
End In.

(* a program and all the functions in it *)
Definition in_order (locals : fundef -> list name) (p : stmt) : bool :=
  ord_s [] [] (funs_s p) p &&
  forallb (fun f => ord_s (params f ++ locals f) (funs_s (body f)) (funs_s p) (body f)) (funs_s p).

Definition no_arrows (p : stmt) : bool := forallb (fun f => negb (is_arrow f)) (funs_s p).

Fixpoint loops_s (s : stmt) : bool :=
  match s with
  | SWhile _ _ => true
  | SSeq a b | SIfElse _ a b => loops_s a || loops_s b
  | SIf _ a => loops_s a
  | _ => false
  end.
Definition no_loops (p : stmt) : bool := negb (loops_s p) && forallb (fun f => negb (loops_s (body f))) (funs_s p).
End Static.

(** ** Memory that a program can reach *)
(* operators do not make up references to objects; wrappers inherit from a built-in prototype *)
Definition no_forging (PS : psys) : Prop :=
  (forall u v w, un_sem PS u v = Some (VObj w) -> v = VObj w) /\
  (forall b v1 v2 w, bin_sem PS b v1 v2 = Some (VObj w) -> v1 = VObj w \/ v2 = VObj w) /\
  (forall p a, wrapper PS p = Some a -> a < 6).
