(** Specification: UTF-8 as in RFC 3629, by arithmetic, and texts as sequences of characters. *)
From Coq Require Import ZArith List.
Import ListNotations.
Local Open Scope Z_scope.

Definition codepoint (c : Z) : Prop := 0 <= c < 0x110000.
(** Characters that can occur in a (NUL-terminated) string. *)
Definition character (c : Z) : Prop := 0 < c < 0x110000.

Definition utf8 (c : Z) : list Z :=
  if c <? 0x80 then [c]
  else if c <? 0x800 then [0xc0 + c / 64; 0x80 + c mod 64]
  else if c <? 0x10000 then [0xe0 + c / 4096; 0x80 + (c / 64) mod 64; 0x80 + c mod 64]
  else [0xf0 + c / 262144; 0x80 + (c / 4096) mod 64; 0x80 + (c / 64) mod 64; 0x80 + c mod 64].

Definition text (cs : list Z) : list Z := flat_map utf8 cs.
