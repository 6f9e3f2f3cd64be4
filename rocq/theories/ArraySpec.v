(** Specification vocabulary for arrays: the list operations. *)
From Coq Require Import ZArith List Bool Permutation.
From Verif Require Import ArrayModel.
Import ListNotations.
Local Open Scope nat_scope.

(** The array object [a] holds the sequence [es] of slots: these are the first [cnt] slots, and
    every further slot is NULL. *)
Definition rep (a : arr) (es : list slot) : Prop :=
  exists k, sl a = es ++ repeat None k /\ cnt a = length es.
Definition ptrs (es : list slot) : list nat :=
  flat_map (fun s => match s with Some p => [p] | None => [] end) es.
(** pointers lead to allocated cells, and no two positions share a cell *)
Definition owned {C} (h : list C) (es : list slot) : Prop := NoDup (ptrs es) /\ Forall (fun p => p < length h) (ptrs es).
(** what a script reads, hole = None *)
Definition view {C} (u : C) (h : list C) (es : list slot) : list (option C) := map (option_map (fun p => nth p h u)) es.
(** an array without holes that holds the values [xs] *)
Definition holds {C} (u : C) (h : list C) (a : arr) (xs : list C) : Prop :=
  exists es, rep a es /\ owned h es /\ view u h es = map Some xs.

(** A position given as a number: negative positions count from the end. *)
Definition from_end (n s : Z) : Z := (if s <? 0 then n + s else s)%Z.

(** the elements at positions lo .. hi *)
Definition between {A} (lo hi : Z) (l : list A) : list A :=
  firstn (Z.to_nat (hi - lo + 1)) (skipn (Z.to_nat lo) l).
(** replace positions lo .. hi by c *)
Definition overwrite {A} (lo hi : Z) (c : A) (l : list A) : list A :=
  map (fun ix => if ((lo <=? Z.of_nat (fst ix)) && (Z.of_nat (fst ix) <=? hi))%Z then c else snd ix)
      (combine (seq 0 (length l)) l).

(** ** Documented effect of the mutators on a sequence *)
Section Ops.
Variable C : Type.
Notation op := (call C).
(** the start of fill and slice: None when there is no such position *)
Definition start_pos (n s : Z) : option Z :=
  let s' := from_end n s in (if (s' <? 0) || (n <? s') then None else Some s')%Z.
(** the last position of fill and slice (inclusive): missing or too large means the last element *)
Definition end_pos (n : Z) (e : option Z) : option Z :=
  match e with
  | None => Some (n - 1)%Z
  | Some e => let e' := from_end n (Z.min e (n - 1)) in (if e' <? 0 then None else Some e')%Z
  end.

Definition spec_fill (l : list C) c s e : list C :=
  let n := Z.of_nat (length l) in
  match start_pos n s, end_pos n e with
  | Some s, Some e => overwrite s e c l
  | _, _ => l
  end.
Definition spec_slice {A} (l : list A) s e : list A :=
  let n := Z.of_nat (length l) in
  match start_pos n s, end_pos n e with
  | Some s, Some e => between s e l
  | _, _ => []
  end.
(** splice: start is clamped at 0 and nothing happens when it lies beyond the end; how many: missing,
    negative or too large means all the rest *)
Definition splice_start (n s : Z) : Z := Z.max 0 (from_end n s).
Definition splice_count (n s : Z) (k : option Z) : nat :=
  Z.to_nat (match k with Some k => if (k <? 0)%Z then n - s else Z.min k (n - s) | None => n - s end)%Z.
Definition spec_splice (l : list C) s k xs : list C * list C :=
  let n := Z.of_nat (length l) in
  if (n <? s)%Z then (l, [])
  else let p := splice_start n s in
       let d := splice_count n p k in
       let i := Z.to_nat p in
       (firstn i l ++ xs ++ skipn (i + d) l, firstn d (skipn i l)).

Definition spec_op (l : list C) (o : op) : list C :=
  match o with
  | KPush _ xs => l ++ xs
  | KPop _ => removelast l
  | KShift _ => tl l
  | KUnshift _ xs => xs ++ l
  | KReverse _ => rev l
  | KFill _ c s e => spec_fill l c s e
  | KSplice _ s k xs => fst (spec_splice l s k xs)
  | KSet _ n c => firstn n l ++ c :: skipn (S n) l
  end.
(** the operation keeps the array dense and within the size limit *)
Definition op_fits (M : nat) (l : list C) (o : op) : Prop :=
  match o with
  | KPush _ xs | KUnshift _ xs | KSplice _ _ _ xs => length l + length xs + 24 <= M
  | KSet _ n _ => n <= length l /\ n + 24 <= M
  | _ => length l + 24 <= M
  end.
End Ops.
Arguments spec_op {C}. Arguments spec_fill {C}. Arguments spec_splice {C}. Arguments op_fits {C}.

(** ** Readers *)
Definition indexed {A} (l : list A) : list (nat * A) := combine (seq 0 (length l)) l.
(** the elements with their positions; holes are skipped *)
Definition present {A} (l : list (option A)) : list (nat * A) :=
  flat_map (fun ix => match snd ix with Some x => [(fst ix, x)] | None => [] end) (indexed l).
Definition spec_map {C} (f : C -> nat -> C) (l : list (option C)) : list (option C) :=
  map (fun ix => option_map (fun c => f c (fst ix)) (snd ix)) (indexed l).
Definition spec_filter {C} (f : C -> nat -> bool) (l : list (option C)) : list C :=
  map snd (filter (fun ix => f (snd ix) (fst ix)) (present l)).
Definition spec_find {C} (f : C -> nat -> bool) (l : list (option C)) : option (nat * C) :=
  find (fun ix => f (snd ix) (fst ix)) (present l).
Definition spec_reduce {C} (f : C -> C -> nat -> C) (acc : C) (items : list (nat * C)) : C :=
  fold_left (fun c ix => f c (snd ix) (fst ix)) items acc.
Fixpoint spec_join (sep : list Z) (l : list (list Z)) : list Z :=
  match l with [] => [] | [x] => x | x :: r => x ++ sep ++ spec_join sep r end.

(** ** Sorting.  A comparison in the sense of qsort: negative, zero, positive for less, equal, greater;
    equality is reflexive and the order is total and transitive. *)
Definition qsort_order {A} (sub : A -> A -> Z) : Prop :=
  (forall x, sub x x = 0%Z) /\
  (forall x y, (sub x y < 0 <-> sub y x > 0)%Z) /\
  (forall x y z, (sub x y <= 0 -> sub y z <= 0 -> sub x z <= 0)%Z).
Inductive sorted_by {A} (sub : A -> A -> Z) : list A -> Prop :=
| sb_nil : sorted_by sub []
| sb_cons x l : Forall (fun y => (sub x y <= 0)%Z) l -> sorted_by sub l -> sorted_by sub (x :: l).
(** What the C standard says about qsort *)
Definition qsort_contract {A} (qsort : (A -> A -> Z) -> list A -> list A) : Prop :=
  forall sub l, qsort_order sub -> Permutation (qsort sub l) l /\ sorted_by sub (qsort sub l).
