(** The language of a glob pattern, on characters. *)
From Coq Require Import ZArith List.
Import ListNotations.
Local Open Scope Z_scope.

Definition STAR := 42. Definition QUERY := 63. Definition OPEN := 91. Definition CLOSE := 93.
Definition BACKSLASH := 92. Definition DASH := 45.

(** Characters compared with or without regard to (ASCII) case. *)
Definition fold (nocase : bool) (c : Z) : Z :=
  if nocase then (if (andb (97 <=? c) (c <=? 122))%bool then c - 32 else c) else c.

(** The text of a set, up to the ']' or to the end of the pattern, is a sequence of ranges "x-y"
    and single characters; [set_text t rs p]: t is the text of the set of the ranges rs followed
    by the rest of the pattern p.  A backslash has no special meaning, except that it does not
    start a range. *)
Inductive set_text : list Z -> list (Z * Z) -> list Z -> Prop :=
| set_close : forall p, set_text (CLOSE :: p) [] p
| set_open_end : set_text [] [] []
| set_range : forall x y t rs p, x <> CLOSE -> x <> BACKSLASH -> set_text t rs p ->
    set_text (x :: DASH :: y :: t) ((x, y) :: rs) p
| set_one : forall x t rs p, x <> CLOSE ->
    (x = BACKSLASH \/ forall y r, t <> DASH :: y :: r) -> set_text t rs p ->
    set_text (x :: t) ((x, x) :: rs) p.
(** [c] lies in one of the ranges, which may be written in either direction. *)
Definition in_set (nocase : bool) (c : Z) (rs : list (Z * Z)) : Prop :=
  exists x y, In (x, y) rs /\
    (fold nocase x <= fold nocase c <= fold nocase y \/ fold nocase y <= fold nocase c <= fold nocase x).

Inductive matches (nocase : bool) : list Z -> list Z -> Prop :=
| m_end : matches nocase [] []
| m_star : forall p s1 s2, matches nocase p s2 -> matches nocase (STAR :: p) (s1 ++ s2)
| m_any : forall p c s, matches nocase p s -> matches nocase (QUERY :: p) (c :: s)
| m_set : forall t rs p c s, set_text t rs p -> in_set nocase c rs -> matches nocase p s ->
    matches nocase (OPEN :: t) (c :: s)
| m_quote : forall x p c s, fold nocase x = fold nocase c -> matches nocase p s ->
    matches nocase (BACKSLASH :: x :: p) (c :: s)
| m_char : forall x p c s, x <> STAR -> x <> QUERY -> x <> OPEN -> (x = BACKSLASH -> p = []) ->
    fold nocase x = fold nocase c -> matches nocase p s -> matches nocase (x :: p) (c :: s).
