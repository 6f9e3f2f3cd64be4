(** What a stack is: a sequence, oldest element first. *)
From Coq Require Import ZArith List.
Import ListNotations.
From Verif Require Import StackModel.
Local Open Scope Z_scope.

(** The last element, and the rest. *)
Definition last_of {V} (q : list V) : option V := match rev q with [] => None | v :: _ => Some v end.

(** What each call answers and leaves behind. *)
Definition answers {V} (c : call V) (q : list V) : answer V * list V :=
  match c with
  | Push v => (ANone, q ++ [v])
  | Pop => (AElem (last_of q), removelast q)
  | Unshift => (AElem (hd_error q), tl q)
  | Peek => (AElem (last_of q), q)
  | Head => (AElem (hd_error q), q)
  | Size => (ANum (Z.of_nat (length q)), q)
  | FreeElements => (AFreed q, [])
  end.
Fixpoint all_answers {V} (cs : list (call V)) (q : list V) : list (answer V) :=
  match cs with [] => [] | c :: r => let '(a, q') := answers c q in a :: all_answers r q' end.

(** The sequence never gets longer than [n]. *)
Fixpoint stays_below {V} (n : Z) (cs : list (call V)) (q : list V) : Prop :=
  Z.of_nat (length q) <= n /\
  match cs with [] => True | c :: r => stays_below n r (snd (answers c q)) end.
