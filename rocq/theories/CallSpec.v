(** * Specification: typed calls *)
From Coq Require Import ZArith List Bool.
Import ListNotations.
Require Import Verif.CallModel.
Local Open Scope Z_scope.

(** Which values a type name stands for. *)
Definition of_type (t : tname) (v : value) : Prop :=
  In (t, vk v) [(Tundefined, KUndef); (Tboolean, KBool); (Tboolean, KBoolObj); (Tnumber, KNum); (Tnumber, KNumObj); (Tstring, KStr); (Tstring, KStrObj);
                (Tobject, KObject); (Tarray, KArray); (Tfunction, KFunction); (Tregexp, KRegexp); (Titerobj, KIter); (Tuserobj, KUser); (Tnull, KNull)].
(** The types of a parameter: those written and that of its default. *)
Definition default_name (d : dflt) : tname :=
  match d with DUndef => Tundefined | DVoid => Tvoid | DNum _ => Tnumber | DBool _ => Tboolean | DNull => Tnull | DStr _ => Tstring end.
Definition types (p : param) : list tname := pn p ++ match pd p with Some d => [default_name d] | None => [] end.
(** An argument the types admit.  undefined is admitted only by name, unless the option noundef is set. *)
Definition admits (noundef : bool) (ns : list tname) (v : value) : Prop :=
  (vk v = KUndef -> noundef = false -> In Tundefined ns \/ In Tany ns) /\
  (ns = [] \/ In Tany ns \/ exists t, In t ns /\ of_type t v).
(** A returned value: undefined is void. *)
Definition may_return (ns : list tname) (v : value) : Prop :=
  ns = [] \/ In Tany ns \/ (if is_undef v then In Tvoid ns else exists t, In t ns /\ of_type t v).
(** The number of arguments: at least those before the first parameter with a default, at most all, unless there is a .... *)
Definition needed (ps : list param) : nat :=
  (fix count l := match l with {| pd := None |} :: r => S (count r) | _ => O end) ps.
Definition number_fits (f : func) (n : nat) : Prop := (needed (params f) <= n)%nat /\ (varargs f = true \/ (n <= length (params f))%nat).
(** What a parameter holds: the argument, or the default in a place of its own, or undefined. *)
Definition held (h h' : heap) (p : param) (a : option nat) (cell : nat) : Prop :=
  match a with
  | Some a => cell = a
  | None => (length h <= cell < length h')%nat /\ get h' cell = match pd p with Some d => dvalue d | None => undefined end
  end.
Definition bound (f : func) (h : heap) (args : list nat) (h' : heap) (cells : list nat) : Prop :=
  length cells = length (params f) /\ (exists new, h' = h ++ new) /\
  (forall i p cell, nth_error (params f) i = Some p -> nth_error cells i = Some cell -> held h h' p (nth_error args i) cell) /\
  (forall i j c, nth_error cells i = Some c -> nth_error cells j = Some c -> (length args <= i)%nat -> i = j).
