(** * Specification: an interpreter that evaluates one script after another *)
Require Import ZArith List Bool Lia.
Import ListNotations.
Require Import Verif.FnModel Verif.FnSpec2.
Local Open Scope nat_scope.

Section Hist.
Context {PS : psys}.
Notation V := (value (prim PS)).
Notation mem := (@mem PS).
Notation stmt := (@stmt PS).
Notation fundef := (@fundef PS).

(** The scripts [qs], evaluated one after the other (Jsi_EvalString), end normally and take the
    interpreter from memory [m] and receivers [th] to [m'] and [th']. *)
Inductive scripts : list stmt -> mem -> (nat -> V) -> mem -> (nat -> V) -> Prop :=
| scripts_nil m th : scripts [] m th m th
| scripts_cons q qs n v m th m1 th1 m' th' :
    run_more n q th m = Done v m1 th1 -> scripts qs m1 th1 m' th' -> scripts (q :: qs) m th m' th'.

(** What an interpreter can have in memory after scripts without arrow functions. *)
Definition reached (m : mem) (th : nat -> V) : Prop :=
  exists qs, forallb no_arrows qs = true /\ scripts qs mem0 th0 m th.

(** The value of variable or property [x] of the scope or object [a], if it has one. *)
Definition variable (m : mem) (a : nat) (x : name) : option V := option_map (cell m) (own m a x).

(** Some function object in memory has the text [f], and was made where scope [a] was visible. *)
Definition sees (m : mem) (a : nat) (f : fundef) : Prop :=
  exists b sc, fn (getobj m b) = Some (f, sc) /\ In a sc.

(** [f] and the functions in it do not assign [x]. *)
Definition never_assigns (f : fundef) (x : name) : Prop :=
  forall g, In g (funs_f f) -> ~ In x (asg_s (body g)).

(** [return e] does not occur (outside inner functions). *)
Fixpoint plain_returns (s : stmt) : bool :=
  match s with
  | SReturn _ => false
  | SSeq a b | SIfElse _ a b => plain_returns a && plain_returns b
  | SIf _ a | SWhile _ a => plain_returns a
  | _ => true
  end.

(** The objects from which [a] inherits: one, the next, ... *)
Inductive inherits (m : mem) : nat -> nat -> Prop :=
| inh_one a p : proto (getobj m a) = Some p -> inherits m a p
| inh_more a p q : proto (getobj m a) = Some p -> inherits m p q -> inherits m a q.
End Hist.
