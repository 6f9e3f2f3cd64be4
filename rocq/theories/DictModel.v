(** Model of Jsi_DictionaryCompare (jsiChar.c 180-281), the comparison behind Array.sort in
    dictionary mode.  A C string is its list of bytes (1..255); the terminating NUL is the end of
    the list, read by [hd0].  isdigit, isupper, islower, tolower are those of the C locale.  The
    pointers are the remaining suffixes; loops carry fuel ([None]: out of fuel, proved
    impossible). *)
From Coq Require Import ZArith List Bool.
Import ListNotations.
Local Open Scope Z_scope.

Definition hd0 (s : list Z) : Z := match s with [] => 0 | c :: _ => c end.
Definition isdigit (c : Z) : bool := (48 <=? c) && (c <=? 57).
Definition isupper (c : Z) : bool := (65 <=? c) && (c <=? 90).
Definition islower (c : Z) : bool := (97 <=? c) && (c <=? 122).

(** jsiChar.c 197-204: skip leading zeros that a digit follows, counting them *)
Fixpoint skip_zeros (s : list Z) : list Z * Z :=
  match s with
  | c :: r => if (c =? 48) && isdigit (hd0 r) then let '(t, n) := skip_zeros r in (t, n + 1) else (s, 0)
  | [] => (s, 0)
  end.
(** jsiChar.c 225-231 *)
Definition skip_comma (s : list Z) : list Z :=
  match s with c :: r => if c =? 44 then r else s | [] => s end.
(** jsiChar.c 217-251: [inl]: return from the function, [inr]: the two positions after the numbers *)
Fixpoint numbers (fuel : nat) (lp rp : list Z) (diff : Z) : option (Z + list Z * list Z) :=
  match fuel with
  | O => None
  | S fuel =>
      let diff := if diff =? 0 then hd0 lp - hd0 rp else diff in
      let lp := skip_comma (tl lp) in
      let rp := skip_comma (tl rp) in
      if negb (isdigit (hd0 rp)) then
        if isdigit (hd0 lp) then Some (inl 1)
        else if negb (diff =? 0) then Some (inl diff)
        else Some (inr (lp, rp))
      else if negb (isdigit (hd0 lp)) then Some (inl (-1))
      else numbers fuel lp rp diff
  end.
(** jsiChar.c 186-281: the loop with secondaryDiff *)
Fixpoint compare_loop (fuel : nat) (lp rp : list Z) (second : Z) : option Z :=
  match fuel with
  | O => None
  | S fuel =>
      if isdigit (hd0 rp) && isdigit (hd0 lp) then
        let '(rp, zr) := skip_zeros rp in
        let '(lp, zl) := skip_zeros lp in
        let zeros := zl - zr in
        let second := if second =? 0 then zeros else second in
        match numbers (S (length lp)) lp rp 0 with
        | None => None
        | Some (inl d) => Some d
        | Some (inr (lp, rp)) => compare_loop fuel lp rp second
        end
      else
        let l := hd0 lp in
        let r := hd0 rp in
        let next second :=
          if l =? 0 then Some second else compare_loop fuel (tl lp) (tl rp) second in
        let diff := l - r in
        if diff =? 0 then next second
        else if isupper l && islower r then
          let diff := l + 32 - r in
          if negb (diff =? 0) then Some diff
          else next (if second =? 0 then -1 else second)
        else if isupper r && islower l then
          let diff := l - (r + 32) in
          if negb (diff =? 0) then Some diff
          else next (if second =? 0 then 1 else second)
        else Some diff
  end.
Definition dictionary_compare (lp rp : list Z) : option Z :=
  compare_loop (S (length lp)) lp rp 0.
