(** Names and abbreviations; bracket structure; numerals. *)
From Coq Require Import ZArith List.
Import ListNotations.
Local Open Scope Z_scope.

Definition lower (c : Z) : Z := if (andb (65 <=? c) (c <=? 90))%bool then c + 32 else c.
(** The key is the name, or its beginning; with nocase up to the case of ASCII letters. *)
Definition fold (nocase : bool) (s : list Z) : list Z := if nocase then map lower s else s.
Definition names (nocase : bool) (key name : list Z) : Prop := fold nocase name = fold nocase key.
Definition abbreviates (nocase : bool) (key name : list Z) : Prop :=
  exists r, fold nocase name = fold nocase key ++ r.

(** [open_text st s]: the text s, with quoted strings, escapes and properly nested brackets,
    leaves the brackets st open; they are listed by their closing partners, innermost first. *)
Definition closer (c : Z) : option Z :=
  if c =? 123 then Some 125 else if c =? 40 then Some 41 else if c =? 91 then Some 93 else None.
Definition special (c : Z) : Prop := In c [92; 123; 40; 91; 125; 41; 93; 39; 34].
Inductive open_text : list Z -> list Z -> Prop :=
| ot_start : open_text [] []
| ot_plain : forall st s c, open_text st s -> ~ special c -> open_text st (s ++ [c])
| ot_escape : forall st s c, open_text st s -> open_text st (s ++ [92; c])
| ot_quoted : forall st s q w, open_text st s -> In q [39; 34] -> Forall (fun c => ~ special c) w ->
    open_text st (s ++ q :: w ++ [q])
| ot_open : forall st s c d, open_text st s -> closer c = Some d -> open_text (d :: st) (s ++ [c])
| ot_close : forall st s d, open_text (d :: st) s -> open_text st (s ++ [d]).

(** A numeral: digits 0-9, a-z (or A-Z) of a base, most significant first. *)
Definition digit_is (base c v : Z) : Prop :=
  0 <= v < base /\ ((c = 48 + v /\ v < 10) \/ (c = 87 + v /\ 10 <= v < 36) \/ (c = 55 + v /\ 10 <= v < 36)).
Inductive numeral (base : Z) : list Z -> Z -> Prop :=
| num_one : forall c v, digit_is base c v -> numeral base [c] v
| num_more : forall s n c v, numeral base s n -> digit_is base c v -> numeral base (s ++ [c]) (n * base + v).
