(** Model of the pattern parser of the regular expression engine: tre_parse and what it calls,
    /repo/regex/regcomp.c 369-1017, for extended patterns (jsish always passes REG_EXTENDED). It turns the text of
    a pattern into the tree of NfaModel.

    A pattern is a list of characters (the code decodes its bytes with mbtowc where a character may stand and
    looks at single bytes elsewhere; no byte of a longer UTF-8 sequence looks like an ASCII character). The end of
    the list is the terminating 0. Memory exhaustion is left out, except that the literals of a bracket are
    counted, and so is everything about tags. *)
From Coq Require Import ZArith List Bool Lia.
From Verif Require Import NfaModel.
Import ListNotations.
Open Scope Z_scope.

(** The locale and the flags, with iswlower, iswupper and wctype (tre.h 57-80). *)
Record loc := { l_env : env; lower : Z -> bool; upper : Z -> bool; wctype : list Z -> Z }.

(** REG_EBRACK, REG_ERANGE, REG_ECOLLATE, REG_ECTYPE, REG_ESPACE, REG_BADPAT, REG_BADBR, REG_EESCAPE, REG_EBRACE,
    REG_EPAREN; [BackRef] marks a pattern with a back reference, which is not modelled; [NoNode] a null tree. *)
Inductive err := EBrack | ERange | ECollate | ECtype | ESpace | BadPat | BadBr | EEscape | EBrace | EParen
               | BackRef | NoNode | Fuel.
Inductive res (A : Type) := Ok (a : A) | Err (e : err).
Arguments Ok {A} a.
Arguments Err {A} e.

(** TRE_CHAR_MAX, tre.h 53. *)
Definition char_max : Z := 1114111.

(** ** Bracket expressions *)

Definition plain_item (lo hi cls : Z) : item := {| i_lo := lo; i_hi := hi; i_cls := cls; i_neg := [] |}.

(** tre_new_lit, regcomp.c 456-472: 32 literals to start with, doubled up to 2^15. *)
Definition new_lit (ls : list item) (x : item) : option (list item) :=
  if Z.of_nat (length ls) <? 32768 then Some (ls ++ [x]) else None.

(** The inner loops of add_icase_literals, regcomp.c 482-493: how far the run of characters goes that [f] maps one
    after the other to e, e+1, ... [n] is the number of characters left in the range. *)
Fixpoint icase_run (f : Z -> Z) (c e : Z) (n : nat) : Z * Z * nat :=
  match n with
  | O => (c, e, O)
  | S n' => if f c =? e then icase_run f (c + 1) (e + 1) n' else (c, e, n)
  end.

(** add_icase_literals, regcomp.c 474-503. [n] characters from c are left, [fuel] at least as many. *)
Fixpoint add_icase (L : loc) (fuel : nat) (ls : list item) (c : Z) (n : nat) : option (list item) :=
  match fuel, n with
  | S fuel', S n' =>
      if lower L c then
        let b := upc (l_env L) c in
        let '(c', e, m) := icase_run (upc (l_env L)) (c + 1) (b + 1) n' in
        match new_lit ls (plain_item b (e - 1) 0) with None => None | Some ls' => add_icase L fuel' ls' c' m end
      else if upper L c then
        let b := lowc (l_env L) c in
        let '(c', e, m) := icase_run (lowc (l_env L)) (c + 1) (b + 1) n' in
        match new_lit ls (plain_item b (e - 1) 0) with None => None | Some ls' => add_icase L fuel' ls' c' m end
      else add_icase L fuel' ls (c + 1) n'
  | _, _ => Some ls
  end.

(** "for (len=0; len < CHARCLASS_NAME_MAX && s[len]; len++)", regcomp.c 560-567: the name up to the colon and what
    follows the colon. *)
Fixpoint class_name (n : nat) (s : list Z) : option (list Z * list Z) :=
  match n, s with
  | S n', c :: r =>
      if c =? 58 then Some ([], r)
      else match class_name n' r with Some (nm, r') => Some (c :: nm, r') | None => None end
  | _, _ => None
  end.

Definition head (s : list Z) : Z := hd 0 s.
Definition second (s : list Z) : Z := hd 0 (tl s).
Definition third (s : list Z) : Z := hd 0 (tl (tl s)).

(** One term: the part of the body of parse_bracket_terms from "rclass = 0" to the "}" of the else branch,
    regcomp.c 536-590. *)
Definition term (L : loc) (s : list Z) : res (Z * Z * Z * list Z) :=
  match s with
  | [] => Err EBrack
  | c :: r =>
      if (c =? 91) && (head r =? 58) then
        match class_name 14 (tl r) with
        | None => Err ECtype
        | Some (nm, r') =>
            if (wctype L nm =? 0) || negb (head r' =? 93) then Err ECtype
            else Ok (0, char_max, wctype L nm, tl r')
        end
      else if (head r =? 45) && negb (second r =? 93) then
        match tl r with
        | [] => Err ERange
        | d :: r' => if d <? c then Err ERange else Ok (c, d, 0, r')
        end
      else Ok (c, c, 0, r)
  end.

(** parse_bracket_terms, regcomp.c 526-612. [first] says s == start. *)
Fixpoint terms (L : loc) (fuel : nat) (negate : bool) (first : bool) (s : list Z) (ls : list item) (neg : list Z)
  : res (list item * list Z * list Z) :=
  match fuel with
  | O => Err Fuel
  | S fuel' =>
      match s with
      | [] => Err EBrack
      | c :: r =>
          if (c =? 93) && negb first then Ok (ls, neg, r)
          else if (c =? 45) && negb first && negb (head r =? 93) && (negb (head r =? 45) || (second r =? 93)) then Err ERange
          else if (c =? 91) && ((head r =? 46) || (head r =? 61)) then Err ECollate
          else
            match term L s with
            | Err e => Err e
            | Ok (lo, hi, cls, rest) =>
                if negb (cls =? 0) && negate then
                  if 64 <=? Z.of_nat (length neg) then Err ESpace
                  else terms L fuel' negate false rest ls (neg ++ [cls])
                else
                  match new_lit ls (plain_item lo hi cls) with
                  | None => Err ESpace
                  | Some ls1 =>
                      if icase (l_env L) && (cls =? 0) then
                        let n := Z.to_nat (hi - lo + 1) in
                        match add_icase L n ls1 lo n with
                        | None => Err ESpace
                        | Some ls2 => terms L fuel' negate false rest ls2 neg
                        end
                      else terms L fuel' negate false rest ls1 neg
                  end
            end
      end
  end.

(** qsort with tre_compare_lit, regcomp.c 444-451, 638: some sorting by the lower end. *)
Fixpoint insert (x : item) (l : list item) : list item :=
  match l with
  | [] => [x]
  | y :: r => if i_lo x <=? i_lo y then x :: l else y :: insert x r
  end.
Fixpoint sort (l : list item) : list item := match l with [] => [] | x :: r => insert x (sort r) end.

(** The loop "Build a union of the items in the array, negated if necessary", regcomp.c 659-684, of a negated
    bracket: the gaps between the sorted literals. *)
Fixpoint gaps (nc : list Z) (ls : list item) (negmin : Z) : list item :=
  match ls with
  | [] => []
  | l :: r =>
      if i_lo l <=? negmin then gaps nc r (Z.max (i_hi l + 1) negmin)
      else {| i_lo := negmin; i_hi := i_lo l - 1; i_cls := i_cls l; i_neg := nc |} :: gaps nc r (i_hi l + 1)
  end.

(** parse_bracket, regcomp.c 614-696. *)
Definition bracket (L : loc) (s : list Z) : res (pat * list Z) :=
  let negate := head s =? 94 in
  let s := if negate then tl s else s in
  match terms L (S (length s)) negate true s [] [] with
  | Err e => Err e
  | Ok (ls, neg, rest) =>
      let items :=
        if negate then
          match new_lit (sort ls) (plain_item (char_max + 1) (char_max + 1) 0) with
          | None => None
          | Some ls' => Some (gaps neg ls' 0)
          end
        else Some ls in
      match items with
      | None => Err ESpace
      | Some [] => Err NoNode
      | Some (x :: xs) => Ok (PSet x xs, rest)
      end
  end.

(** ** Counts *)

Definition isdigit (c : Z) : bool := (48 <=? c) && (c <=? 57).

(** The loop of parse_dup_count, regcomp.c 704-709. *)
Fixpoint count_digits (s : list Z) (n : Z) : Z * list Z :=
  match s with
  | c :: r =>
      let n' := 10 * n + (c - 48) in
      if negb (isdigit (head r)) || (255 <? n') then (n', r) else count_digits r n'
  | [] => (n, [])
  end.

(** parse_dup_count, regcomp.c 698-711. *)
Definition dup_count (s : list Z) : Z * list Z := if isdigit (head s) then count_digits s 0 else (-1, s).

(** parse_dup, regcomp.c 713-742: the two counts and the rest of the text. *)
Definition dup (s : list Z) : res (Z * Z * list Z) :=
  let '(mn, s1) := dup_count s in
  let '(mx, s2) := if head s1 =? 44 then dup_count (tl s1) else (mn, s1) in
  if ((mx <? mn) && (0 <=? mx)) || (255 <? mx) || (255 <? mn) || (mn <? 0) || negb (head s2 =? 125)
  then Err BadBr else Ok (mn, mx, tl s2).

(** ** Atoms *)

(** hexval, regcomp.c 744-750: -1 if it is no hexadecimal digit. *)
Definition hexval (c : Z) : Z :=
  if (48 <=? c) && (c <=? 57) then c - 48
  else if (97 <=? Z.lor c 32) && (Z.lor c 32 <=? 102) then Z.lor c 32 - 97 + 10 else -1.

(** "for (i=0; i<len && v<0x110000; i++)", regcomp.c 827-831. *)
Fixpoint hex_digits (n : nat) (s : list Z) (v : Z) : Z * list Z :=
  match n with
  | O => (v, s)
  | S n' => if v <? 1114112 then if hexval (head s) <? 0 then (v, s) else hex_digits n' (tl s) (16 * v + hexval (head s)) else (v, s)
  end.

(** tre_macros, regcomp.c 424-433: \t \n \r \f \a \e and the text of the bracket for \w \W \s \S \d \D. *)
Definition txt_alnum : list Z := [91; 58; 97; 108; 110; 117; 109; 58; 93].
Definition txt_space : list Z := [91; 58; 115; 112; 97; 99; 101; 58; 93].
Definition txt_digit : list Z := [91; 58; 100; 105; 103; 105; 116; 58; 93].
Definition macro (c : Z) : option (list Z) :=
  if c =? 116 then Some [9] else if c =? 110 then Some [10] else if c =? 114 then Some [13]
  else if c =? 102 then Some [12] else if c =? 97 then Some [7] else if c =? 101 then Some [27]
  else if c =? 119 then Some ([91] ++ txt_alnum ++ [95; 93])
  else if c =? 87 then Some ([91; 94] ++ txt_alnum ++ [95; 93])
  else if c =? 115 then Some ([91] ++ txt_space ++ [93])
  else if c =? 83 then Some ([91; 94] ++ txt_space ++ [93])
  else if c =? 100 then Some ([91] ++ txt_digit ++ [93])
  else if c =? 68 then Some ([91; 94] ++ txt_digit ++ [93])
  else None.

Definition one (lo hi : Z) : pat := PSet (plain_item lo hi 0) [].

(** parse_literal of parse_atom, regcomp.c 892-910. *)
Definition literal (L : loc) (c : Z) : pat :=
  if icase (l_env L) && (upper L c || lower L c)
  then PSet (plain_item (upc (l_env L) c) (upc (l_env L) c) 0) [plain_item (lowc (l_env L) c) (lowc (l_env L) c) 0]
  else one c c.

(** parse_atom, regcomp.c 787-915, but for the backslash. *)
Definition plain_atom (L : loc) (s : list Z) : res (pat * list Z) :=
  match s with
  | [] => Ok (PEmpty, [])
  | c :: r =>
      if c =? 91 then bracket L r
      else if c =? 46 then
        if newline (l_env L) then Ok (PAlt (one 0 9) (one 11 char_max), r) else Ok (one 0 char_max, r)
      else if c =? 94 then Ok (PAt Bol, r)
      else if c =? 36 then Ok (PAt Eol, r)
      else if (c =? 42) || (c =? 124) || (c =? 123) || (c =? 43) || (c =? 63) then Ok (PEmpty, s)
      else Ok (literal L c, r)
  end.

(** "case '\\'" of parse_atom, regcomp.c 795-861. An escaped character beyond ASCII is cut in the middle, and the rest
    of its bytes cannot be decoded. *)
Definition escape (L : loc) (r : list Z) : res (pat * list Z) :=
  match r with
  | [] => Err EEscape
  | c :: r' =>
      match macro c with
      | Some p => match plain_atom L p with Ok (n, _) => Ok (n, r') | Err e => Err e end
      | None =>
          if c =? 98 then Ok (PAt Wb, r')
          else if c =? 66 then Ok (PAt NotWb, r')
          else if c =? 60 then Ok (PAt Bow, r')
          else if c =? 62 then Ok (PAt Eow, r')
          else if c =? 120 then
            if head r' =? 123 then
              let '(v, s) := hex_digits 8 (tl r') 0 in
              if head s =? 125 then Ok (one v v, tl s) else Err EBrace
            else let '(v, s) := hex_digits 2 r' 0 in Ok (one v v, s)
          else if isdigit c then Err BackRef
          else if 128 <=? c then Err BadPat
          else Ok (one c c, r')
      end
  end.

(** parse_atom, regcomp.c 787-915. *)
Definition atom (L : loc) (s : list Z) : res (pat * list Z) :=
  if head s =? 92 then escape L (tl s) else plain_atom L s.

(** ** The whole pattern *)

(** A node and whether its submatch_id is set. *)
Notation node := (pat * bool)%type.

(** tre_ast_new_catenation, tre_ast_new_union, regcomp.c 189-223: a missing left side is left out. *)
Definition cat (l : option node) (r : node) : node := match l with None => r | Some l => (PCat (fst l) (fst r), false) end.
Definition union (l : option node) (r : node) : node := match l with None => r | Some l => (PAlt (fst l) (fst r), false) end.

(** marksub, regcomp.c 752-768. *)
Definition marksub (n : node) : node := (if snd n then PCat PEmpty (fst n) else fst n, true).

(** tre_parse, regcomp.c 927-1035. [stack] holds (nunion, nbranch) of the enclosing groups, depth is its length;
    [cur] is the node when the loop stands at the label parse_iter. *)
Fixpoint parse (L : loc) (fuel : nat) (stack : list (option node * option node)) (nunion nbranch : option node)
         (cur : option node) (s : list Z) : res pat :=
  match fuel with
  | O => Err Fuel
  | S fuel' =>
      match cur with
      | None =>
          if head s =? 40 then parse L fuel' ((nunion, nbranch) :: stack) None None None (tl s)
          else if (head s =? 41) && negb (match stack with [] => true | _ => false end)
          then parse L fuel' stack nunion nbranch (Some (PEmpty, false)) s
          else match atom L s with
               | Err e => Err e
               | Ok (n, s') => parse L fuel' stack nunion nbranch (Some (n, false)) s'
               end
      | Some n =>
          if head s =? 42 then parse L fuel' stack nunion nbranch (Some (PRep 0 (-1) (fst n), false)) (tl s)
          else if head s =? 43 then parse L fuel' stack nunion nbranch (Some (PRep 1 (-1) (fst n), false)) (tl s)
          else if head s =? 63 then parse L fuel' stack nunion nbranch (Some (PRep 0 1 (fst n), false)) (tl s)
          else if head s =? 123 then
            match dup (tl s) with
            | Err e => Err e
            | Ok (mn, mx, s') => parse L fuel' stack nunion nbranch (Some (PRep mn mx (fst n), false)) s'
            end
          else
            let b := cat nbranch n in
            if head s =? 124 then parse L fuel' stack (Some (union nunion b)) None None (tl s)
            else
              match s, stack with
              | [], [] => Ok (fst (marksub (union nunion b)))
              | [], _ :: _ => Err EParen
              | c :: r, (u, b0) :: stack' =>
                  if c =? 41 then parse L fuel' stack' u b0 (Some (marksub (union nunion b))) r
                  else parse L fuel' stack nunion (Some b) None s
              | _ :: _, [] => parse L fuel' stack nunion (Some b) None s
              end
      end
  end.

(** tre_parse on a whole pattern; the loop goes round at most twice for each character. *)
Definition tre_parse (L : loc) (s : list Z) : res pat := parse L (2 * length s + 2) [] None None None s.

(** regcomp and regexec together (jsish's RegExp): [None] if the pattern is refused. *)
Definition search (L : loc) (s txt : list Z) : res bool :=
  match tre_parse L s with Ok p => Ok (regexec (l_env L) p txt) | Err e => Err e end.
