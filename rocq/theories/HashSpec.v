(** Specification vocabulary for hash tables: the key types on which the operations agree
    about the bucket of a key, with the keys each admits. *)
From Coq Require Import ZArith List.
Import ListNotations.
From Verif Require Import TreeModel TreeSpec HashModel.
Local Open Scope Z_scope.

Inductive supported : forall K : Type, (K -> Prop) -> kind K -> Prop :=
| sup_string : supported (list Z) cstring string_kind                     (* NUL-terminated strings *)
| sup_word : supported Z (fun k => 0 <= k < 2 ^ 64) oneword_kind          (* pointers, numbers *)
| sup_struct : forall n : nat, supported (list Z) (fun k => length k = n) struct_kind.  (* n-byte structs *)

(** Number of assignments in a history. *)
Fixpoint assignments {K V} (ops : list (op K V)) : Z :=
  match ops with
  | [] => 0
  | OpSet _ _ :: r => 1 + assignments r
  | OpUnset _ :: r => assignments r
  end.
