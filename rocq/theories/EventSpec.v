(** Specification vocabulary for the event loop: what a log of observations (latest first) says.
    Nothing here looks at the event table. *)
From Coq Require Import ZArith List Bool.
Import ListNotations.
From Verif Require Import EventModel.
Local Open Scope Z_scope.

(** The ids handed out, latest first. *)
Fixpoint ids (l : list obs) : list Z :=
  match l with
  | [] => []
  | OSet id _ _ _ :: r => id :: ids r
  | ONew id :: r => id :: ids r
  | _ :: r => ids r
  end.

(** When the current wait of timer [id] began, for how long it was set, and whether it was set
    with setTimeout: the wait begins when the timer is created and again at the pass in which
    its callback is called. *)
Fixpoint waiting (id : Z) (l : list obs) : option (Z * Z * bool) :=
  match l with
  | [] => None
  | OSet id' ms once t :: r => if id' =? id then Some (t, ms, once) else waiting id r
  | ORun id' n t :: r =>
      if id' =? id then match waiting id r with Some (_, ms, once) => Some (t, ms, once) | None => None end
      else waiting id r
  | _ :: r => waiting id r
  end.

(** Was the callback of [id] ever called? *)
Definition ran (id : Z) (l : list obs) : Prop := exists n t, In (ORun id n t) l.

(** [id] is a timer that was created and still has to run: not cleared, and if it was set with
    setTimeout, not yet run. *)
Definition pending (id : Z) (l : list obs) : Prop :=
  exists b ms once, waiting id l = Some (b, ms, once) /\ ~ In (OClear id) l /\ (once = true -> ~ ran id l).

(** Actions of a callback that leave the event table alone. *)
Definition quiet (a : action) : Prop := exists d, a = ATick d.
(** Actions of a callback that do not remove events from the table, nor run a nested pass. *)
Definition only_creates (a : action) : Prop :=
  match a with ATick _ | ASet _ _ | AHandler | ANew => True | _ => False end.
