(** What dictionary order should be. *)
From Coq Require Import ZArith List.
Import ListNotations.
Local Open Scope Z_scope.

(** Bytes of a C string *)
Definition cbytes (s : list Z) : Prop := Forall (fun c => 1 <= c <= 255) s.
(** Text without the six characters between Z and a: [ \ ] ^ _ and the backquote *)
Definition plain (s : list Z) : Prop := Forall (fun c => 1 <= c <= 255 /\ ~ 91 <= c <= 96) s.
Definition digit (c : Z) : Prop := 48 <= c <= 57.
(** No comma directly after a digit *)
Definition no_digit_comma (s : list Z) : Prop :=
  forall u d v, s = u ++ d :: 44 :: v -> ~ digit d.
(** The number written by decimal digits *)
Definition value (ds : list Z) : Z := fold_left (fun n c => n * 10 + (c - 48)) ds 0.
(** A text that a number may follow without being part of a longer number: it does not end in a
    digit or a comma *)
Definition before_number (p : list Z) : Prop :=
  forall u c, p = u ++ [c] -> ~ digit c /\ c <> 44.
Definition after_number (r : list Z) : Prop :=
  forall c u, r = c :: u -> ~ digit c /\ c <> 44.
Definition lower (c : Z) : Z := if (andb (65 <=? c) (c <=? 90))%bool then c + 32 else c.
(** Alphabetical order of character lists *)
Inductive before : list Z -> list Z -> Prop :=
| before_end : forall c s, before [] (c :: s)
| before_char : forall a b s t, a < b -> before (a :: s) (b :: t)
| before_next : forall a s t, before s t -> before (a :: s) (a :: t).
