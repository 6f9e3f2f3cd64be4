(** Model of Jsi_GlobMatch and JsiCharsetMatch (src/jsiUtils.c 1973-2031, 2167-2229).  A char
    pointer is the list of the bytes from it up to and including the terminating NUL; [[]] is a
    pointer past the NUL, and reading through it is [Bad].  Decoding a character reads further
    bytes only while they are continuation bytes, so not past the NUL (UtfModel).
    toupper is that of the C locale; it is undefined, [Bad], above 255. *)
From Coq Require Import ZArith List Bool.
Import ListNotations.
From Verif Require Import UtfModel.
Local Open Scope Z_scope.

Inductive out (A : Type) := Done (a : A) | Bad | NoFuel.
Arguments Done {A}. Arguments Bad {A}. Arguments NoFuel {A}.

Definition upper (c : Z) : Z := if (97 <=? c) && (c <=? 122) then c - 32 else c.

(** Jsi_UtfToUniCharCase, jsiUtf8.c 221-232 *)
Definition utf_case (nocase : bool) (p : list Z) : Z * nat :=
  let '(c, l) := utf_to_unichar p in (if nocase && (c <? 128) then upper c else c, l).

(** The loop of JsiCharsetMatch, jsiUtils.c 1997-2025 (without JSI_CMP_CHARSET_SCAN, which
    Jsi_GlobMatch never passes): the rest of the pattern if there was a match, or NULL. *)
Fixpoint charset_loop (fuel : nat) (nocase : bool) (p : list Z) (c : Z) (m : bool) : out (option (list Z)) :=
  match fuel with
  | O => NoFuel
  | S fuel =>
    match p with
    | [] => Bad
    | b :: _ =>
      if (b =? 0) || (b =? 93) then Done (if m then Some p else None)
      else if b =? 92 then
        let '(pc, l) := utf_case nocase p in charset_loop fuel nocase (skipn l p) c (m || (pc =? c))
      else
        let '(st, l) := utf_case nocase p in
        let p1 := skipn l p in
        match p1 with
        | [] => Bad
        | b1 :: _ =>
          if (b1 =? 45) && negb (at_ p1 1 =? 0) then
            let p2 := skipn (snd (utf_to_unichar p1)) p1 in
            let '(en, l3) := utf_case nocase p2 in
            charset_loop fuel nocase (skipn l3 p2) c
              (m || ((st <=? c) && (c <=? en)) || ((en <=? c) && (c <=? st)))
          else charset_loop fuel nocase p1 c (m || (st =? c))
        end
    end
  end.
(** jsiUtils.c 1973-1983: the case of the character *)
Definition charset_match (fuel : nat) (nocase : bool) (p : list Z) (c : Z) : out (option (list Z)) :=
  if nocase then (if 255 <? c then Bad else charset_loop fuel nocase p (upper c) false)
  else charset_loop fuel nocase p c false.

(** jsiUtils.c 2174-2176: while (pattern[1] is a star) pattern++ *)
Fixpoint skip_stars (p : list Z) : list Z :=
  match p with
  | a :: r => match r with b :: _ => if b =? 42 then skip_stars r else p | [] => p end
  | [] => []
  end.
(** jsiUtils.c 2219-2221: while ( *pattern is a star) pattern++ *)
Fixpoint drop_stars (p : list Z) : list Z :=
  match p with b :: r => if b =? 42 then drop_stars r else p | [] => [] end.
(** jsiUtils.c 2181-2185 *)
Fixpoint star_loop (fuel : nat) (f : list Z -> out bool) (s : list Z) : out bool :=
  match fuel with
  | O => NoFuel
  | S fuel =>
    match s with
    | [] => Bad
    | b :: _ =>
      if b =? 0 then Done false
      else match f s with
           | Done true => Done true
           | Done false => star_loop fuel f (skipn (snd (utf_to_unichar s)) s)
           | e => e
           end
    end
  end.
(** jsiUtils.c 2225-2228 *)
Definition at_end (p s : list Z) : out bool :=
  match p with
  | [] => Bad
  | b :: _ => if b =? 0 then match s with [] => Bad | d :: _ => Done (d =? 0) end else Done false
  end.
(** jsiUtils.c 2217-2223: the end of the loop body *)
Definition next (nocase : bool) (p s : list Z) (k : list Z -> list Z -> out bool) : out bool :=
  let p' := skipn (snd (utf_case nocase p)) p in
  match s with
  | [] => Bad
  | d :: _ => if d =? 0 then at_end (drop_stars p') s else k p' s
  end.

Fixpoint glob (fuel : nat) (nocase : bool) (p s : list Z) {struct fuel} : out bool :=
  match fuel with
  | O => NoFuel
  | S fuel =>
    match p with
    | [] => Bad
    | b :: r =>
      if b =? 0 then at_end p s
      else if b =? 42 then
        let p1 := skipn 1 (skip_stars p) in
        match p1 with
        | [] => Bad
        | b1 :: _ => if b1 =? 0 then Done true else star_loop (S (length s)) (glob fuel nocase p1) s
        end
      else if b =? 63 then
        next nocase p (skipn (snd (utf_to_unichar s)) s) (glob fuel nocase)
      else if b =? 91 then
        let '(c, l) := utf_to_unichar s in
        match charset_match (S (length r)) nocase r c with
        | Done None => Done false
        | Done (Some p') =>
            match p' with
            | [] => Bad
            | b' :: _ => if b' =? 0 then at_end p' (skipn l s) (* continue; the loop ends *)
                         else next nocase p' (skipn l s) (glob fuel nocase)
            end
        | Bad => Bad
        | NoFuel => NoFuel
        end
      else
        let p0 := if (b =? 92) && negb (at_ p 1 =? 0) then skipn 1 p else p in
        let '(c, l) := utf_case nocase s in
        let '(pc, _) := utf_case nocase p0 in
        if pc =? c then next nocase p0 (skipn l s) (glob fuel nocase) else Done false
    end
  end.
(** Jsi_GlobMatch, jsiUtils.c 2167-2229 *)
Definition glob_match (fuel : nat) (pattern string : list Z) (nocase : bool) : out bool :=
  glob fuel nocase (pattern ++ [0]) (string ++ [0]).
