(** Specification for the tree properties: what a history of assignments and deletions
    means, what a total order is, what a sorted key listing is. *)
From Coq Require Import ZArith List Sorting.Sorted.
Import ListNotations.
From Verif Require Import TreeModel.
Local Open Scope Z_scope.

(** A three-way comparison procedure that is a total order on the keys satisfying [P]. *)
Record total_order {K} (P : K -> Prop) (cmp : K -> K -> Z) : Prop := {
  cmp_eq    : forall a b, P a -> P b -> (cmp a b = 0 <-> a = b);
  cmp_flip  : forall a b, P a -> P b -> (cmp a b < 0 <-> cmp b a > 0);
  cmp_trans : forall a b c, P a -> P b -> P c -> cmp a b < 0 -> cmp b c < 0 -> cmp a c < 0
}.

(** What a key is bound to after a history, oldest operation first, starting from [b]:
    every operation on the key replaces its binding. *)
Fixpoint binding {K V} (dec : forall a b : K, {a = b} + {a <> b})
    (ops : list (op K V)) (k : K) (b : option V) : option V :=
  match ops with
  | [] => b
  | OpSet k' v :: rest => binding dec rest k (if dec k' k then Some v else b)
  | OpUnset k' :: rest => binding dec rest k (if dec k' k then None else b)
  end.

Definition op_key {K V} (o : op K V) : K :=
  match o with OpSet k _ => k | OpUnset k => k end.

(** Keys in strictly ascending order. *)
Definition ascending {K} (cmp : K -> K -> Z) (ks : list K) : Prop :=
  StronglySorted (fun a b => cmp a b < 0) ks.

(** Height: number of nodes on the longest root-to-leaf path. *)
Fixpoint height {K V} (t : tree K V) : nat :=
  match t with E => 0%nat | T _ l _ r => S (Nat.max (height l) (height r)) end.

(** Byte strings without NUL. *)
Definition cstring (s : list Z) : Prop := Forall (fun b => 0 < b < 256) s.
