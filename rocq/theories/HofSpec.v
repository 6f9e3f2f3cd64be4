(** * Specification of the array methods that call a function *)
From Coq Require Import ZArith List Bool.
Import ListNotations.
Require Import Verif.ArrayModel Verif.ArraySpec Verif.HofModel.
Local Open Scope nat_scope.

Section Spec.
Context {C St : Type}.
Variable M : nat.
Notation world := (world C St).
Notation callback := (callback C St).

(** What a script sees at this moment: the length, and the cell of the element at position i (None: a hole, or beyond the
    end). *)
Definition len (w : world) : nat := cnt (ar w).
Definition elem_at (w : world) (i : nat) : option nat :=
  match nth_error (elems (ar w)) i with Some (Some p) => Some p | _ => None end.

(** An array as scripts can make it: nothing behind its last element, its elements have their own cells, and it is not longer than the
    limit on arrays. *)
Definition good (w : world) : Prop :=
  (exists es, rep (ar w) es /\ owned (hp w) es) /\ length (sl (ar w)) <= M.
(** A function that can do anything to the array which leaves it so.  (Blocks and the heap never shrink.) *)
Definition tame (f : world -> nat -> nat -> world * option C) : Prop :=
  forall w p i, good w -> let w' := fst (f w p i) in
  good w' /\ length (sl (ar w)) <= length (sl (ar w')) /\ length (hp w) <= length (hp w').

(** Go through the positions in the given order.  If there is an element at a position when its turn comes, [body] is run on it;
    an error ends it. *)
Fixpoint visit {A} (body : A -> world -> nat -> nat -> world * option A) (is : list nat) (acc : A) (w : world) : world * option A :=
  match is with
  | [] => (w, Some acc)
  | i :: r =>
      match elem_at w i with
      | None => visit body r acc w
      | Some p => match body acc w p i with
                  | (w', Some acc') => visit body r acc' w'
                  | (w', None) => (w', None)
                  end
      end
  end.
Definition outcome {A B} (g : A -> B) (r : world * option A) : world * hres B :=
  (fst r, match snd r with Some x => HDone (g x) | None => HErr end).

(** map: the results, each at the position of its element *)
Fixpoint lookup (l : list (nat * C)) (i : nat) : option C :=
  match l with [] => None | (j, c) :: r => if j =? i then Some c else lookup r i end.
Definition spec_map (f : callback) (w : world) : world * hres (list (option C)) :=
  outcome (fun l => map (lookup l) (seq 0 (len w)))
    (visit (fun acc w p i => let '(w', r) := f w p i in (w', option_map (fun c => acc ++ [(i, c)]) r)) (seq 0 (len w)) [] w).
(** filter: the elements for which the function says yes, as they are after the call (if the function has removed the
    element: what it returned) *)
Definition keep (truth : C -> bool) (f : callback) (acc : list nat) (w : world) (p i : nat) : world * option (list nat) :=
  match f w p i with
  | (w', None) => (w', None)
  | (w', Some c) =>
      if truth c then
        match elem_at w' i with
        | Some q => (w', Some (acc ++ [q]))
        | None => (mkW (st w') (hp w' ++ [c]) (ar w'), Some (acc ++ [length (hp w')]))
        end
      else (w', Some acc)
  end.
Definition spec_filter (truth : C -> bool) (f : callback) (w : world) : world * hres (list nat) :=
  outcome (fun l => l) (visit (keep truth f) (seq 0 (len w)) [] w).
(** reduce, from an accumulator *)
Definition spec_reduce (f : callback2 C St) (is : list nat) (acc : C) (w : world) : world * hres C :=
  outcome (fun c => c) (visit (fun acc w p i => f w acc p i) is acc w).

(** forEach, find, some, every, findIndex: walk up until the present end of the array or a result that stops the walk *)
Inductive ending := Failed | Stopped (i : nat) (c : C) | Finished (last : option C).
Inductive walk (stop : C -> bool) (f : callback) : nat -> option C -> world -> world -> ending -> Prop :=
| walk_end i last w : len w <= i -> walk stop f i last w w (Finished last)
| walk_skip i last w w' e : i < len w -> elem_at w i = None -> walk stop f (S i) last w w' e -> walk stop f i last w w' e
| walk_fail i last w p w' : i < len w -> elem_at w i = Some p -> f w p i = (w', None) -> walk stop f i last w w' Failed
| walk_stop i last w p w' c : i < len w -> elem_at w i = Some p -> f w p i = (w', Some c) -> stop c = true ->
    walk stop f i last w w' (Stopped i c)
| walk_next i last w p w1 c w' e : i < len w -> elem_at w i = Some p -> f w p i = (w1, Some c) -> stop c = false ->
    walk stop f (S i) (Some c) w1 w' e -> walk stop f i last w w' e.

(** A function of a script: it gets the value and position, decides from them and everything else what it does to the
    array, may assign its parameter, and returns or fails. *)
Definition script_fun (u : C) (g : St -> C -> nat -> St * option C * list (call C) * option C) : callback := fun w p i =>
  let '(s', x, ks, r) := g (st w) (nth p (hp w) u) i in
  let h := match x with Some c => wr C (hp w) p c | None => hp w end in
  match do_calls C u M h (ar w) ks with
  | Some (h', a') => (mkW s' h' a', r)
  | None => (mkW s' h (ar w), r)
  end.
End Spec.
