(** * Specification: what a script can see of objects *)
From Coq Require Import ZArith List Bool.
Import ListNotations.
Require Import Verif.TreeModel Verif.TreeSpec Verif.ObjModel.
Local Open Scope nat_scope.

(** Where a value is held: property k of object o, element i of array a, variable y. *)
Inductive place := PProp (o : nat) (k : key) | PElem (a i : nat) | PVar (y : nat).
Definition at_place (s : st) (p : place) : option nat :=
  match p with
  | PProp o k => match nth_error (objs s) o with Some b => find_key k (props b) | None => None end
  | PElem a i => match nth_error (objs s) a with Some b => match els b with Some l => nth_error l i | None => None end | None => None end
  | PVar y => nth_error (vars s) y
  end.
(** What is there, if anything. *)
Definition at_val (s : st) (p : place) : option val := option_map (fun c => fst (get_cell s c)) (at_place s p).
(** The own property k of object o, if it has one; its prototype; the names of its own enumerable properties. *)
Definition own (s : st) (o : nat) (k : key) : option val := at_val s (PProp o k).
Definition parent (s : st) (o : nat) : option nat := match nth_error (objs s) o with Some b => proto b | None => None end.
Definition enum (s : st) (o : nat) : list key := match nth_error (objs s) o with Some b => map ek (filter een (props b)) | None => [] end.
Definition exists_obj (s : st) (o : nat) : Prop := o < length (objs s).
(** Whether and how it is frozen. *)
Definition frozen (s : st) (o : nat) : bool := match nth_error (objs s) o with Some b => frz b | None => false end.
Definition no_modify (s : st) (o : nat) : bool := match nth_error (objs s) o with Some b => nomod b | None => false end.
Definition read_check (s : st) (o : nat) : bool := match nth_error (objs s) o with Some b => rdchk b | None => false end.

(** l: the object, its prototype, the prototype of that, to the end. *)
Inductive line (s : st) : nat -> list nat -> Prop :=
| line_end o : parent s o = None -> line s o [o]
| line_up o p l : parent s o = Some p -> line s p l -> line s o (o :: l).
(** The property as a script reads it: the first of the line that has it. *)
Fixpoint first_own (s : st) (l : list nat) (k : key) : option val :=
  match l with [] => None | o :: r => match own s o k with Some v => Some v | None => first_own s r k end end.
(** ... and that object *)
Fixpoint holder (s : st) (l : list nat) (k : key) : option nat :=
  match l with [] => None | o :: r => match own s o k with Some _ => Some o | None => holder s r k end end.

(** Two names for one value: what changes one in place changes the other. *)
Definition apart (s : st) (p : place) : Prop := forall q c, at_place s p = Some c -> at_place s q = Some c -> q = p.
(** Nothing changed for a script but what is at p. *)
Definition only_at (s s' : st) (p : place) : Prop :=
  (forall q, q <> p -> at_val s' q = at_val s q) /\ (forall o, parent s' o = parent s o).
(** Well formed: everything points to a value there is, an object has at most one property of a name, variables have
    their own values, prototypes exist. *)
Record wf (s : st) : Prop := {
  wf_cell : forall p c, at_place s p = Some c -> c < length (cells s);
  wf_keys : forall o b, nth_error (objs s) o = Some b -> NoDup (map ek (props b));
  wf_vars : forall y, apart s (PVar y);
  wf_proto : forall o p, parent s o = Some p -> p < length (objs s)
}.

(** h is o or one of its prototypes; o has a property k, its own or inherited. *)
Inductive inherits (s : st) : nat -> nat -> Prop :=
| inherits_self o : inherits s o o
| inherits_up o p h : parent s o = Some p -> inherits s p h -> inherits s o h.
Definition has (s : st) (o : nat) (k : key) : Prop := exists h, inherits s o h /\ own s h k <> None.
(** One list is another with some elements left out. *)
Inductive part {A} : list A -> list A -> Prop :=
| part_nil : part [] []
| part_in x l m : part l m -> part (x :: l) (x :: m)
| part_out x l m : part l m -> part l (x :: m).
(** The loop body, noting for which names and in which states it is run. *)
Definition noting {X} (body : st * X -> key -> (st * X) * bool) (w : st * (X * list (st * key))) (k : key) : (st * (X * list (st * key))) * bool :=
  let '((s', x'), go) := body (fst w, fst (snd w)) k in ((s', (x', snd (snd w) ++ [(fst w, k)])), go).
