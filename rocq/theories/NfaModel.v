(** Model of the regular expression engine that jsish is built with: /repo/regex (the TRE library).
    regcomp.c turns the parsed pattern into an automaton without empty transitions (one state per
    literal of the pattern), regexec.c runs all of its paths over the text at the same time.

    Left out everywhere in this component: the tags that record where groups begin and end (tags are
    literals that match the empty string and only decide WHICH match is reported, not whether there is
    one), back references (they use another matcher), memory exhaustion, and the decoding of the
    text by mbtowc: a text is a list of characters, none of which is 0. *)
From Coq Require Import ZArith List Bool Lia.
Import ListNotations.
Open Scope Z_scope.

(** What the locale and the flags supply: iswctype, towupper, towlower, iswalnum (tre.h 57-80), and
    REG_NOTBOL, REG_NOTEOL (eflags), REG_NEWLINE, REG_ICASE (cflags). *)
Record env := { isct : Z -> Z -> bool; upc : Z -> Z; lowc : Z -> Z; alnum : Z -> bool;
                notbol : bool; noteol : bool; newline : bool; icase : bool }.

(** A literal of the tree: tre_literal_t, /repo/regex/tre.h (code_min, code_max, position, rclass,
    neg_classes; no class is 0, no negated classes is the empty list). *)
Record lit := { l_pos : Z; l_lo : Z; l_hi : Z; l_cls : Z; l_neg : list Z }.

(** The tree that tre_parse builds (tre_ast_node_t): LITERAL nodes that are empty, an assertion or a
    range of characters, CATENATION, UNION and ITERATION (max is -1 for "no limit"). *)
Inductive ast :=
| Empty
| Assert (a : Z)
| Lit (l : lit)
| Cat (x y : ast)
| Alt (x y : ast)
| Iter (mn mx : Z) (x : ast).

(** ** The parser's tree builder

    What the text of the pattern says, as the parser reads it: [PSet] is one bracket expression, one
    character (in a pattern that ignores case: two), or a dot. *)
Inductive asr := Bol | Eol | Bow | Eow | Wb | NotWb.

Record item := { i_lo : Z; i_hi : Z; i_cls : Z; i_neg : list Z }.

Inductive pat :=
| PEmpty
| PAt (a : asr)
| PSet (s : item) (ss : list item)
| PCat (x y : pat)
| PAlt (x y : pat)
| PRep (mn mx : Z) (x : pat).

(** ASSERT_AT_BOL ... ASSERT_AT_WB_NEG, /repo/regex/tre.h 120-129. *)
Definition code (a : asr) : Z :=
  match a with Bol => 1 | Eol => 2 | Bow => 16 | Eow => 32 | Wb => 64 | NotWb => 128 end.

Definition lit_of (pos : Z) (s : item) : lit :=
  {| l_pos := pos; l_lo := i_lo s; l_hi := i_hi s; l_cls := i_cls s; l_neg := i_neg s |}.

(** parse_bracket's loop "node = tre_ast_new_union(ctx->mem, node, n)", /repo/regex/regcomp.c 657-686:
    all the literals of one bracket expression get the same position. *)
Fixpoint set_node (pos : Z) (node : ast) (ss : list item) : ast :=
  match ss with
  | [] => node
  | s :: rest => set_node pos (Alt node (Lit (lit_of pos s))) rest
  end.

(** tre_parse, parse_atom, parse_dup, /repo/regex/regcomp.c 713-1017: the tree and the next free
    position. A repetition {0} or {0,0} is replaced by the empty literal (regcomp.c 734), though the
    positions of its body are used up. Groups only matter for tags. *)
Fixpoint number (p : pat) (pos : Z) : ast * Z :=
  match p with
  | PEmpty => (Empty, pos)
  | PAt a => (Assert (code a), pos)
  | PSet s ss => (set_node pos (Lit (lit_of pos s)) ss, pos + 1)
  | PCat x y => let '(x', p1) := number x pos in let '(y', p2) := number y p1 in (Cat x' y', p2)
  | PAlt x y => let '(x', p1) := number x pos in let '(y', p2) := number y p1 in (Alt x' y', p2)
  | PRep mn mx x =>
      let '(x', p1) := number x pos in
      if (mn =? 0) && (mx =? 0) then (Empty, p1) else (Iter mn mx x', p1)
  end.

(** ** Bounded repetitions are written out *)

(** tre_copy_ast, /repo/regex/regcomp.c 1643-1764: a copy of the tree with [add] added to every
    position. The copied literal is made by tre_ast_new_literal(mem, min, max, pos): its character class
    and its negated classes are NOT copied. *)
Fixpoint copy (r : ast) (add : Z) : ast :=
  match r with
  | Empty => Empty
  | Assert a => Assert a
  | Lit l => Lit {| l_pos := l_pos l + add; l_lo := l_lo l; l_hi := l_hi l; l_cls := 0; l_neg := [] |}
  | Cat x y => Cat (copy x add) (copy y add)
  | Alt x y => Alt (copy x add) (copy y add)
  | Iter mn mx x => Iter mn mx (copy x add)
  end.

(** num_copied of tre_copy_ast (regcomp.c 1678): the number of literals copied. *)
Fixpoint lits (r : ast) : Z :=
  match r with
  | Empty | Assert _ => 0
  | Lit _ => 1
  | Cat x y | Alt x y => lits x + lits y
  | Iter _ _ x => lits x
  end.

(** "for (j = 0; j < iter->min; j++)" of tre_expand_ast, /repo/regex/regcomp.c 1849-1869: [n] copies in a
    row after [seq] (the copies are made with a growing pos_add). *)
Fixpoint row (a : ast) (n : nat) (add : Z) (seq : option ast) : option ast * Z :=
  match n with
  | O => (seq, add)
  | S n' =>
      let c := copy a add in
      row a n' (add + lits a) (Some (match seq with Some s => Cat s c | None => c end))
  end.

(** "for (j = iter->min; j < iter->max; j++)", regcomp.c 1887-1908: [n] nested optional copies. *)
Fixpoint nest (a : ast) (n : nat) (add : Z) (seq : option ast) : option ast * Z :=
  match n with
  | O => (seq, add)
  | S n' =>
      let c := copy a add in
      nest a n' (add + lits a)
           (Some (Alt Empty (match seq with Some s => Cat c s | None => c end)))
  end.

(** The body of "if (iter->min > 1 || iter->max > 1)", regcomp.c 1841-1922: the sequence that replaces
    the iteration and the new pos_add. pos_add_save is pos_add before the last copy, so the last
    copy is counted as being the body itself. *)
Definition unroll (a : ast) (mn mx add : Z) : ast * Z :=
  let '(s1, add1) := row a (Z.to_nat mn) add None in
  let '(s2, add2) :=
    if mx =? -1 then (Some (Iter 0 (-1) (copy a add1)), add1 + lits a)
    else nest a (Z.to_nat (mx - mn)) add1 None in
  let r := match s1, s2 with
           | None, Some s => s
           | Some s, None => s
           | Some x, Some y => Cat x y
           | None, None => Empty
           end in
  (r, add2 - lits a).

Definition expanded (mn mx : Z) : bool := (1 <? mn) || (1 <? mx).

(** pos_add, pos_add_total and iter_depth of tre_expand_ast. *)
Record xst := { pos_add : Z; total : Z; depth : Z }.

(** tre_expand_ast, /repo/regex/regcomp.c 1773-1945. The explicit stack is written as recursion. *)
Fixpoint expand (r : ast) (st : xst) : ast * xst :=
  match r with
  | Empty => (Empty, st)
  | Assert a => (Assert a, st)
  | Lit l => (Lit {| l_pos := l_pos l + pos_add st; l_lo := l_lo l; l_hi := l_hi l;
                     l_cls := l_cls l; l_neg := l_neg l |}, st)
  | Cat x y => let '(x', s1) := expand x st in let '(y', s2) := expand y s1 in (Cat x' y', s2)
  | Alt x y => let '(x', s1) := expand x st in let '(y', s2) := expand y s1 in (Alt x' y', s2)
  | Iter mn mx x =>
      let last := pos_add st in
      let start := if expanded mn mx then 0 else pos_add st in
      let '(x', s1) := expand x {| pos_add := start; total := total st; depth := depth st + 1 |} in
      let '(r', add) := if expanded mn mx then unroll x' mn mx last else (Iter mn mx x', last) in
      let d := depth s1 - 1 in
      let t := total s1 + (add - last) in
      (r', {| pos_add := if d =? 0 then t else add; total := t; depth := d |})
  end.

(** max_pos: the largest position of the tree. (The code also looks at the bodies before they are
    copied, whose positions are no larger.) *)
Fixpoint max_pos (r : ast) : Z :=
  match r with
  | Empty | Assert _ => 0
  | Lit l => Z.max 0 (l_pos l)
  | Cat x y | Alt x y => Z.max (max_pos x) (max_pos y)
  | Iter _ _ x => max_pos x
  end.

(** ** The automaton *)

(** An entry of a position set: tre_pos_and_tags_t. *)
Record ent := { e_pos : Z; e_lo : Z; e_hi : Z; e_cls : Z; e_neg : list Z; e_as : Z }.

(** tre_set_one, /repo/regex/regcomp.c 1990-2012. *)
Definition set_one (pos lo hi cls : Z) (neg : list Z) : list ent :=
  [{| e_pos := pos; e_lo := lo; e_hi := hi; e_cls := cls; e_neg := neg; e_as := 0 |}].

(** tre_set_union, /repo/regex/regcomp.c 2014-2082: the assertions are added to the first set only. *)
Definition set_union (s1 s2 : list ent) (a : Z) : list ent :=
  map (fun e => {| e_pos := e_pos e; e_lo := e_lo e; e_hi := e_hi e; e_cls := e_cls e; e_neg := e_neg e;
                   e_as := Z.lor (e_as e) a |}) s1 ++ s2.

(** The nullable field, tre_compute_nfl, /repo/regex/regcomp.c 2199-2420. *)
Fixpoint null (r : ast) : bool :=
  match r with
  | Empty | Assert _ => true
  | Lit _ => false
  | Cat x y => null x && null y
  | Alt x y => null x || null y
  | Iter mn _ x => (mn =? 0) || null x
  end.

(** tre_match_empty, /repo/regex/regcomp.c 2089-2183: the assertions of the one empty path it takes,
    the left side of a union if that can be empty, the body of an iteration if that can be empty. *)
Fixpoint emp (r : ast) : Z :=
  match r with
  | Empty | Lit _ => 0
  | Assert a => a
  | Cat x y => Z.lor (emp x) (emp y)
  | Alt x y => if null x then emp x else emp y
  | Iter _ _ x => if null x then emp x else 0
  end.

(** The firstpos field (regcomp.c 2232-2385). A first position carries no character class. *)
Fixpoint first (r : ast) : list ent :=
  match r with
  | Empty | Assert _ => []
  | Lit l => set_one (l_pos l) (l_lo l) (l_hi l) 0 []
  | Cat x y => if null x then set_union (first y) (first x) (emp x) else first x
  | Alt x y => set_union (first x) (first y) 0
  | Iter _ _ x => first x
  end.

(** The lastpos field (regcomp.c 2232-2410). *)
Fixpoint last (r : ast) : list ent :=
  match r with
  | Empty | Assert _ => []
  | Lit l => set_one (l_pos l) (l_lo l) (l_hi l) (l_cls l) (l_neg l)
  | Cat x y => if null y then set_union (last x) (last y) (emp y) else last y
  | Alt x y => set_union (last x) (last y) 0
  | Iter _ _ x => last x
  end.

(** A transition: tre_tnfa_transition_t with the state that owns it. *)
Record trn := { t_src : Z; t_lo : Z; t_hi : Z; t_cls : Z; t_neg : list Z; t_dst : Z; t_as : Z }.

Definition nonempty (l : list Z) : bool := match l with [] => false | _ => true end.

(** The transition that tre_make_trans writes, /repo/regex/regcomp.c 2476-2500. *)
Definition mk (e f : ent) : trn :=
  {| t_src := e_pos e; t_lo := e_lo e; t_hi := e_hi e; t_cls := e_cls e; t_neg := e_neg e;
     t_dst := e_pos f;
     t_as := Z.lor (Z.lor (Z.lor (e_as e) (e_as f)) (if e_cls e =? 0 then 0 else 4))
                   (if nonempty (e_neg e) then 8 else 0) |}.

(** The inner loop of tre_make_trans, regcomp.c 2436-2560: an entry with the position of the entry
    before it is skipped. *)
Fixpoint from_one (e : ent) (prev : Z) (p2 : list ent) : list trn :=
  match p2 with
  | [] => []
  | f :: rest => if e_pos f =? prev then from_one e prev rest
                 else mk e f :: from_one e (e_pos f) rest
  end.

(** tre_make_trans, /repo/regex/regcomp.c 2424-2572 (the second pass, with the table). *)
Definition make_trans (p1 p2 : list ent) : list trn := flat_map (fun e => from_one e (-1) p2) p1.

(** tre_ast_to_tnfa, /repo/regex/regcomp.c 2577-2630. *)
Fixpoint trans (r : ast) : list trn :=
  match r with
  | Empty | Assert _ | Lit _ => []
  | Alt x y => trans x ++ trans y
  | Cat x y => make_trans (last x) (first y) ++ trans x ++ trans y
  | Iter _ mx x => (if mx =? -1 then make_trans (last x) (first x) else []) ++ trans x
  end.

(** tre_tnfa_t: the table, the initial states and the final state. A state is its position (the code
    uses the address of the state's part of the table; offs[] grows with the position, so
    different positions have different addresses). *)
Record tnfa := { table : list trn; initial : list ent; final : Z }.

(** regcomp, /repo/regex/regcomp.c 2648-2850, after parsing: the repetitions are written out, a literal
    for the final state is put behind the tree, and the automaton is read off. *)
Definition regcomp (p : pat) : tnfa :=
  let '(r0, position) := number p 0 in
  let '(r, st) := expand r0 {| pos_add := 0; total := 0; depth := 0 |} in
  let position := position + total st in
  let position := if position <? max_pos r then max_pos r else position in
  let tree := Cat r (Lit {| l_pos := position; l_lo := 0; l_hi := 0; l_cls := 0; l_neg := [] |}) in
  {| table := trans tree; initial := first tree;
     final := match last tree with e :: _ => e_pos e | [] => -1 end |}.

(** ** Running it *)

Definition has (m b : Z) : bool := negb (Z.land m b =? 0).

(** IS_WORD_CHAR, /repo/regex/regexec.c 62. *)
Definition word (E : env) (c : Z) : bool := (c =? 95) || alnum E c.

(** CHECK_ASSERTIONS, /repo/regex/regexec.c 64-82: true when some assertion FAILS. *)
Definition fails (E : env) (m pos prev next : Z) : bool :=
  (has m 1 && ((0 <? pos) || notbol E) && (negb (prev =? 10) || negb (newline E)))
  || (has m 2 && (negb (next =? 0) || noteol E) && (negb (next =? 10) || negb (newline E)))
  || (has m 16 && (word E prev || negb (word E next)))
  || (has m 32 && (negb (word E prev) || word E next))
  || (has m 64 && (negb (pos =? 0) && negb (next =? 0) && Bool.eqb (word E prev) (word E next)))
  || (has m 128 && ((pos =? 0) || (next =? 0) || negb (Bool.eqb (word E prev) (word E next)))).

(** tre_neg_char_classes_match, /repo/regex/regexec.c 121-133. *)
Fixpoint neg_match (E : env) (cls : list Z) (c : Z) : bool :=
  match cls with
  | [] => false
  | k :: rest =>
      if (negb (icase E) && isct E c k) || (icase E && (isct E (upc E c) k || isct E (lowc E c) k))
      then true else neg_match E rest c
  end.

(** CHECK_CHAR_CLASSES, /repo/regex/regexec.c 83-93: true when a class FAILS. *)
Definition class_fails (E : env) (t : trn) (c : Z) : bool :=
  (has (t_as t) 4 && negb (icase E) && negb (isct E c (t_cls t)))
  || (has (t_as t) 4 && icase E && negb (isct E (lowc E c) (t_cls t)) && negb (isct E (upc E c) (t_cls t)))
  || (has (t_as t) 8 && neg_match E (t_neg t) c).

(** Is the transition taken? tre_tnfa_run_parallel, /repo/regex/regexec.c 372-381. *)
Definition fires (E : env) (t : trn) (pos prev next : Z) : bool :=
  (t_lo t <=? prev) && (prev <=? t_hi t)
  && negb (negb (t_as t =? 0) && (fails E (t_as t) pos prev next || class_fails E t prev)).

(** reach_next, reach_pos[].pos, and whether match_eo has been set. *)
Record rst := { reach : list Z; rpos : Z -> Z; hit : bool }.

(** Adding a state that was not reached at this position yet, regexec.c 252-277 and 397-419. *)
Definition visit (A : tnfa) (q pos : Z) (s : rst) : rst :=
  if rpos s q <? pos
  then {| reach := reach s ++ [q]; rpos := fun x => if x =? q then pos else rpos s x;
          hit := hit s || (q =? final A) |}
  else s.

(** Adding the initial states, regexec.c 247-285. *)
Fixpoint start (E : env) (A : tnfa) (init : list ent) (pos prev next : Z) (s : rst) : rst :=
  match init with
  | [] => s
  | e :: rest =>
      if rpos s (e_pos e) <? pos then
        if negb (e_as e =? 0) && fails E (e_as e) pos prev next
        then start E A rest pos prev next s
        else start E A rest pos prev next (visit A (e_pos e) pos s)
      else start E A rest pos prev next s
  end.

(** The transitions of one state, regexec.c 369-441. *)
Fixpoint leave (E : env) (A : tnfa) (q : Z) (ts : list trn) (pos prev next : Z) (s : rst) : rst :=
  match ts with
  | [] => s
  | t :: rest =>
      leave E A q rest pos prev next
        (if (t_src t =? q) && fires E t pos prev next then visit A (t_dst t) pos s else s)
  end.

(** "for (reach_i = reach; reach_i->state; reach_i++)", regexec.c 367-443. *)
Fixpoint step (E : env) (A : tnfa) (qs : list Z) (pos prev next : Z) (s : rst) : rst :=
  match qs with
  | [] => s
  | q :: rest => step E A rest pos prev next (leave E A q (table A) pos prev next s)
  end.

(** The loop of tre_tnfa_run_parallel, /repo/regex/regexec.c 244-449, up to the moment match_eo is set:
    from then on it only changes to a later position, so REG_OK is certain. *)
Fixpoint run (E : env) (A : tnfa) (txt : list Z) (pos prev : Z) (s : rst) : bool :=
  let next := hd 0 txt in
  let s1 := start E A (initial A) pos prev next s in
  if hit s1 then true else
  match txt with
  | [] => false
  | c :: rest =>
      if c =? 0 then false else
      let s2 := step E A (reach s1) (pos + 1) c (hd 0 rest)
                     {| reach := []; rpos := rpos s1; hit := false |} in
      if hit s2 then true else run E A rest (pos + 1) c s2
  end.

(** regexec, /repo/regex/regexec.c 984-1016: does the compiled pattern match the text? *)
Definition regexec (E : env) (p : pat) (txt : list Z) : bool :=
  run E (regcomp p) txt 0 0 {| reach := []; rpos := fun _ => -1; hit := false |}.
