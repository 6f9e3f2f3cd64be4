(** Model of the array methods that call a function (src/jsiArray.c), with functions that may do anything: change the array
    while it is walked, other objects and variables, or fail.  (ArrayModel has the same methods for functions without
    effects.)

    The world is the array (as in ArrayModel: block of slots and count), the heap of cells and everything else.  A
    callback gets the cell of the element (the argument array shares it: Jsi_ObjNewArray with copyflag 0) and its
    position; the third argument, the array, is part of the world it gets.  It returns None if it ends with an error.
    Simplified: how many of the three arguments are passed (the number the function declares).  The cells of the new
    array of map and the accumulator of reduce cannot be reached by the callback while it runs, except that a function which
    keeps its accumulator parameter in a closure sees it change; they are kept as values. *)
From Coq Require Import ZArith List Bool.
Import ListNotations.
Require Import Verif.ArrayModel.
Local Open Scope nat_scope.

Section Hof.
Variable C : Type.
Variable undef : C.
Variable truth : C -> bool.    (* Jsi_ValueIsTrue *)
Variable M : nat.              (* interp->maxArrayList *)
Variable St : Type.

Record world := mkW { st : St; hp : list C; ar : arr }.
Definition callback := world -> nat -> nat -> world * option C.
Definition callback2 := world -> C -> nat -> nat -> world * option C.
Inductive hres (A : Type) := HDone (x : A) | HErr.
Arguments HDone {A}. Arguments HErr {A}.

Definition vput (l : list (option C)) (i : nat) (v : option C) : option (list (option C)) :=
  if i <? length l then Some (firstn i l ++ v :: skipn (S i) l) else None.

(** jsi_ArrayMapCmd, jsiArray.c:345-400.  [k] positions are left. *)
Fixpoint map_loop (f : callback) (k i : nat) (dst : list (option C)) (w : world) : option (world * hres (list (option C))) :=
  match k with
  | O => Some (w, HDone dst)
  | S k =>
      match get (sl (ar w)) i with
      | None => None
      | Some None => map_loop f k (S i) dst w
      | Some (Some p) =>
          let '(w, r) := f w p i in
          match r with
          | None => Some (w, HErr)
          | Some c => match vput dst i (Some c) with None => None | Some dst => map_loop f k (S i) dst w end
          end
      end
  end.
Definition map_cmd (f : callback) (w : world) : option (world * hres (list (option C))) :=
  let curlen := cnt (ar w) in
  let nsiz := if cnt (ar w) =? 0 then 1 else cnt (ar w) in
  match sizer M empty nsiz with
  | None => Some (w, HErr)
  | Some b =>
      match map_loop f curlen 0 (repeat None (length (sl b))) w with
      | None => None
      | Some (w, HErr) => Some (w, HErr)
      | Some (w, HDone dst) => if curlen <=? length dst then Some (w, HDone (firstn curlen dst)) else None (* Jsi_ObjSetLength *)
      end
  end.

(** jsi_ArrayFilterCmd, jsiArray.c:402-472 *)
Fixpoint filter_loop (f : callback) (k i n : nat) (dst : list slot) (w : world) : option (world * hres (list slot * nat)) :=
  match k with
  | O => Some (w, HDone (dst, n))
  | S k =>
      match get (sl (ar w)) i with
      | None => None
      | Some None => filter_loop f k (S i) n dst w
      | Some (Some p) =>
          let '(w, r) := f w p i in
          match r with
          | None => Some (w, HErr)
          | Some c =>
              if truth c then
                (* 455-460 *)
                let fresh := (mkW (st w) (hp w ++ [c]) (ar w), Some (length (hp w))) in
                let kept :=
                  if i <? cnt (ar w) then
                    match get (sl (ar w)) i with
                    | None => None
                    | Some (Some q) => Some (w, Some q)
                    | Some None => Some fresh
                    end
                  else Some fresh in
                match kept with
                | None => None
                | Some (w, q) => match put dst n q with None => None | Some dst => filter_loop f k (S i) (S n) dst w end
                end
              else filter_loop f k (S i) n dst w
          end
      end
  end.
Definition filter_cmd (f : callback) (w : world) : option (world * hres (list slot)) :=
  let curlen := cnt (ar w) in
  let nsiz := if cnt (ar w) =? 0 then 1 else cnt (ar w) in
  match sizer M empty nsiz with
  | None => Some (w, HErr)
  | Some b =>
      match filter_loop f curlen 0 0 (sl b) w with
      | None => None
      | Some (w, HErr) => Some (w, HErr)
      | Some (w, HDone (dst, n)) => if n <=? length dst then Some (w, HDone (firstn n dst)) else None
      end
  end.

(** jsi_ArrayForeachCmd, jsiArray.c:499-543: the count is read again in each round; the value of the command is that of the
    last call.  [Some None]: out of fuel *)
Fixpoint foreach_loop (fuel : nat) (f : callback) (i : nat) (last : C) (w : world) : option (option (world * hres C)) :=
  match fuel with
  | O => Some None
  | S fuel =>
      if i <? cnt (ar w) then
        match get (sl (ar w)) i with
        | None => None
        | Some None => foreach_loop fuel f (S i) last w
        | Some (Some p) =>
            let '(w, r) := f w p i in
            match r with
            | None => Some (Some (w, HErr))
            | Some c => foreach_loop fuel f (S i) c w
            end
        end
      else Some (Some (w, HDone last))
  end.
Definition foreach_cmd (f : callback) (w : world) := foreach_loop (S M) f 0 undef w.

(** jsi_ArrayFindSubCmd, jsiArray.c:545-606: the loop 569-592 gives fval and i *)
Fixpoint find_loop (fuel : nat) (every : bool) (f : callback) (i : nat) (fval : bool) (w : world) : option (option (world * hres (bool * nat))) :=
  match fuel with
  | O => Some None
  | S fuel =>
      if i <? cnt (ar w) then
        match get (sl (ar w)) i with
        | None => None
        | Some None => find_loop fuel every f (S i) fval w
        | Some (Some p) =>
            let '(w, r) := f w p i in
            match r with
            | None => Some (Some (w, HErr))
            | Some c =>
                let fval := truth c in
                if (if every then negb fval else fval) then Some (Some (w, HDone (fval, i)))
                else find_loop fuel every f (S i) fval w
            end
        end
      else Some (Some (w, HDone (fval, i)))
  end.
(* 593-600; Jsi_ValueCopy from NULL gives undefined, and so does a command that sets no value *)
Definition find_cmd (f : callback) (w : world) : option (option (world * hres C)) :=
  match find_loop (S M) false f 0 false w with
  | None => None
  | Some None => Some None
  | Some (Some (w, HErr)) => Some (Some (w, HErr))
  | Some (Some (w, HDone (false, _))) => Some (Some (w, HDone undef))
  | Some (Some (w, HDone (true, i))) =>
      match get (sl (ar w)) i with
      | None => None
      | Some None => Some (Some (w, HDone undef))
      | Some (Some p) => Some (Some (w, HDone (rd C undef (hp w) p)))
      end
  end.
Definition conv {A} (g : bool * nat -> A) (r : option (option (world * hres (bool * nat)))) : option (option (world * hres A)) :=
  option_map (option_map (fun x => (fst x, match snd x with HDone y => HDone (g y) | HErr => HErr end))) r.
Definition some_cmd f w := conv fst (find_loop (S M) false f 0 false w).
Definition every_cmd f w := conv fst (find_loop (S M) true f 0 false w).
Definition find_index_cmd f w := conv (fun r : bool * nat => if fst r then Z.of_nat (snd r) else (-1)%Z) (find_loop (S M) false f 0 false w).

(** jsi_ArrayReduceSubCmd, jsiArray.c:608-658: [n] rounds done, [k] left; the bounds are those at the start.  ini None: NULL, which
    the callback gets as undefined *)
Fixpoint reduce_loop (rev : bool) (f : callback2) (k i n : nat) (ini : option C) (w : world) : option (world * hres (option C)) :=
  match k with
  | O => Some (w, HDone ini)
  | S k =>
      let i' := if rev then i - 1 else S i in
      match get (sl (ar w)) i with
      | None => None
      | Some None => reduce_loop rev f k i' (S n) ini w
      | Some (Some p) =>
          if (n =? 0) && (match ini with None => true | _ => false end)
          then reduce_loop rev f k i' (S n) (Some (rd C undef (hp w) p)) w
          else
            let '(w, r) := f w (match ini with Some c => c | None => undef end) p i in
            match r with
            | None => Some (w, HErr)
            | Some c => reduce_loop rev f k i' (S n) (Some c) w
            end
      end
  end.
Definition reduce_cmd (rev : bool) (f : callback2) (ini : option C) (w : world) :=
  reduce_loop rev f (cnt (ar w)) (if rev then cnt (ar w) - 1 else 0) 0 ini w.
End Hof.
Arguments HDone {A}. Arguments HErr {A}. Arguments mkW {C St}. Arguments st {C St}. Arguments hp {C St}. Arguments ar {C St}.
