(** What the String commands are about: occurrences, pieces, trimming, case. *)
From Coq Require Import ZArith List.
Import ListNotations.
Local Open Scope Z_scope.

(** The pattern stands in the string at offset i. *)
Definition occurs_at (pat s : list Z) (i : nat) : Prop :=
  exists a b, s = a ++ pat ++ b /\ length a = i.
Definition occurs (pat s : list Z) : Prop := exists i, occurs_at pat s i.

(** [cut Sep s l]: l are the pieces of s between the separators, when the leftmost separator is
    taken first and the search goes on after it. *)
Inductive cut (Sep : list Z -> Prop) : list Z -> list (list Z) -> Prop :=
| cut_last : forall s, (forall m, Sep m -> ~ occurs m s) -> cut Sep s [s]
| cut_more : forall a m r l, Sep m ->
    (forall m' i, Sep m' -> occurs_at m' (a ++ m ++ r) i -> (length a <= i)%nat) ->
    cut Sep r l -> cut Sep (a ++ m ++ r) (a :: l).

(** The elements one after the other with the separator between them. *)
Fixpoint joined (sep : list Z) (l : list (list Z)) : list Z :=
  match l with
  | [] => []
  | [s] => s
  | s :: l => s ++ sep ++ joined sep l
  end.

(** White space of the C locale: blank, tab, newline, vertical tab, form feed, return. *)
Definition white (c : Z) : Prop := In c [32; 9; 10; 11; 12; 13].

(** [r] is what remains of [s] when the elements of P are taken off at the left / right / both. *)
Definition trimmed_left (P : Z -> Prop) (s r : list Z) : Prop :=
  exists a, s = a ++ r /\ Forall P a /\ (forall c r', r = c :: r' -> ~ P c).
Definition trimmed_right (P : Z -> Prop) (s r : list Z) : Prop :=
  exists b, s = r ++ b /\ Forall P b /\ (forall c r', r = r' ++ [c] -> ~ P c).
Definition trimmed (P : Z -> Prop) (s r : list Z) : Prop :=
  exists a b, s = a ++ r ++ b /\ Forall P a /\ Forall P b /\
    (forall c r', r = c :: r' -> ~ P c) /\ (forall c r', r = r' ++ [c] -> ~ P c).

(** Upper and lower case of the ASCII letters; every other character is its own. *)
Definition upper_of (c : Z) : Z := if (andb (97 <=? c) (c <=? 122))%bool then c - 32 else c.
Definition lower_of (c : Z) : Z := if (andb (65 <=? c) (c <=? 90))%bool then c + 32 else c.

(** Replacing by a table: at each position the first pair whose key starts there is taken, the
    value is put in its place and the scan goes on after the key; other bytes are kept. *)
Inductive replaced (pairs : list (list Z * list Z)) : list Z -> list Z -> Prop :=
| rep_end : replaced pairs [] []
| rep_keep : forall c s t, (forall k v, In (k, v) pairs -> ~ occurs_at k (c :: s) 0) ->
    replaced pairs s t -> replaced pairs (c :: s) (c :: t)
| rep_key : forall p1 k v p2 s t, pairs = p1 ++ (k, v) :: p2 -> k <> [] ->
    (forall k' v', In (k', v') p1 -> ~ occurs_at k' (k ++ s) 0) ->
    replaced pairs s t -> replaced pairs (k ++ s) (v ++ t).
