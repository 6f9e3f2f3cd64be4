(** What the text of a pattern says: its grammar, how it is written, and what it matches. *)
From Coq Require Import ZArith List Bool Lia.
From Verif Require Import NfaModel NfaSpec PatModel.
Import ListNotations.
Open Scope Z_scope.

(** ** The locale *)

(** What the engine takes for granted of the locale (its comments say so): a letter is not both lower and upper case; the lower
    case letters are those that change when raised, the upper case letters those that change when lowered; 0 is no letter. *)
Definition sane (L : loc) : Prop := forall c,
  (lower L c = true -> upper L c = false)
  /\ (lower L c = true <-> upc (l_env L) c <> c) /\ (upper L c = true <-> lowc (l_env L) c <> c)
  /\ (0 < c -> 0 < upc (l_env L) c /\ 0 < lowc (l_env L) c).

(** Character x stands for the character c of the pattern. *)
Definition alike (L : loc) (c x : Z) : Prop :=
  x = c \/ (icase (l_env L) = true /\ ((lower L c = true /\ x = upc (l_env L) c) \/ (upper L c = true /\ x = lowc (l_env L) c))).

(** ** Bracket expressions *)

Inductive bterm := TChar (c : Z) | TRange (a b : Z) | TClass (name : list Z).

Definition pr_term (t : bterm) : list Z :=
  match t with TChar c => [c] | TRange a b => [a; 45; b] | TClass nm => [91; 58] ++ nm ++ [58; 93] end.
Definition pr_terms (ts : list bterm) : list Z := flat_map pr_term ts.

(** Character x is one the term lists. *)
Definition in_term (L : loc) (x : Z) (t : bterm) : Prop :=
  match t with
  | TChar c => alike L c x
  | TRange a b => exists c, a <= c <= b /\ alike L c x
  | TClass nm => in_class (l_env L) (wctype L nm) x
  end.
Definition in_set (L : loc) (neg : bool) (ts : list bterm) (x : Z) : Prop :=
  if neg then ~ Exists (in_term L x) ts else Exists (in_term L x) ts.

Definition is_char (c : Z) : Prop := 0 < c <= char_max.

(** How the terms must be written to be read as such: ] only first, - only first or last, an opening bracket not before a
    character that makes it open something. *)
Fixpoint wf_terms (L : loc) (fst : bool) (ts : list bterm) : Prop :=
  match ts with
  | [] => fst = false
  | t :: r =>
      let next := hd 0 (pr_terms r ++ [93]) in
      match t with
      | TChar c => is_char c /\ (c = 93 -> fst = true) /\ (c = 45 -> fst = true \/ r = [])
                   /\ (c = 91 -> next <> 46 /\ next <> 61 /\ next <> 58) /\ (next = 45 -> r = [TChar 45])
      | TRange a b => is_char a /\ is_char b /\ (a = 93 -> fst = true) /\ (a = 45 -> fst = true) /\ a <= b /\ b <> 93
      | TClass nm => ~ In 58 nm /\ (length nm <= 13)%nat /\ wctype L nm <> 0
      end /\ wf_terms L false r
  end.

(** Room: at most 32767 literals are kept, and each letter of a range may need one more; 64 classes may be negated. *)
Definition weight (L : loc) (t : bterm) : Z :=
  match t with
  | TChar _ => 2
  | TRange a b => if icase (l_env L) then b - a + 2 else 1
  | TClass _ => 1
  end.
Definition sum (l : list Z) : Z := fold_right Z.add 0 l.
Definition is_class (t : bterm) : bool := match t with TClass _ => true | _ => false end.

Definition wf_set (L : loc) (neg : bool) (ts : list bterm) : Prop :=
  wf_terms L true ts /\ (neg = false -> hd 0 (pr_terms ts) <> 94)
  /\ sum (map (weight L) ts) <= 32767 /\ (length (filter is_class ts) <= 64)%nat.

Definition pr_set (neg : bool) (ts : list bterm) : list Z := (if neg then [94] else []) ++ pr_terms ts ++ [93].

(** ** Counts *)

Inductive times_of := Star | Plus | Opt | Exactly (n : list Z) | From (n : list Z) | Between (n m : list Z).

Definition value (ds : list Z) : Z := fold_left (fun v d => 10 * v + (d - 48)) ds 0.
Definition number_ok (ds : list Z) : Prop := ds <> [] /\ Forall (fun d => 48 <= d <= 57) ds /\ value ds <= 255.

Definition pr_times (d : times_of) : list Z :=
  match d with
  | Star => [42] | Plus => [43] | Opt => [63]
  | Exactly n => [123] ++ n ++ [125]
  | From n => [123] ++ n ++ [44; 125]
  | Between n m => [123] ++ n ++ [44] ++ m ++ [125]
  end.
Definition wf_times (d : times_of) : Prop :=
  match d with
  | Star | Plus | Opt => True
  | Exactly n | From n => number_ok n
  | Between n m => number_ok n /\ number_ok m /\ value n <= value m
  end.
(** May the part stand n times? *)
Definition allows (d : times_of) (n : nat) : Prop :=
  let n := Z.of_nat n in
  match d with
  | Star => True
  | Plus => 1 <= n
  | Opt => n <= 1
  | Exactly k => n = value k
  | From k => value k <= n
  | Between k m => value k <= n <= value m
  end.

(** ** Single characters, escapes, assertions *)

Inductive simple :=
| Chr (c : Z)              (* an ordinary character *)
| Esc (c : Z)              (* a character after a backslash *)
| Ctl (k c : Z)            (* \t and the like: the letter, the character *)
| Hex2 (h1 h2 : Z)         (* \xHH *)
| Hexs (hs : list Z)       (* \x{H...} *)
| Dot
| At (a : asr)             (* ^ $ \b \B \< \> *)
| Set_ (neg : bool) (ts : list bterm)
| Cls (k : Z).             (* \w \W \s \S \d \D *)

Definition special (c : Z) : bool := existsb (Z.eqb c) [40; 41; 42; 43; 46; 63; 91; 92; 94; 36; 123; 124].
Definition controls : list (Z * Z) := [(116, 9); (110, 10); (114, 13); (102, 12); (97, 7); (101, 27)].
Definition hex_value (h : Z) : Z := if h <=? 57 then h - 48 else if h <=? 70 then h - 55 else h - 87.
Definition is_hex (h : Z) : Prop := 48 <= h <= 57 \/ 65 <= h <= 70 \/ 97 <= h <= 102.
Definition hexs_value (hs : list Z) : Z := fold_left (fun v h => 16 * v + hex_value h) hs 0.

Definition pr_at (a : asr) : list Z :=
  match a with Bol => [94] | Eol => [36] | Wb => [92; 98] | NotWb => [92; 66] | Bow => [92; 60] | Eow => [92; 62] end.

(** The brackets that the escapes stand for. *)
Definition cls_terms (k : Z) : option (bool * list bterm) :=
  let alnum := TClass [97; 108; 110; 117; 109] in
  let space := TClass [115; 112; 97; 99; 101] in
  let digit := TClass [100; 105; 103; 105; 116] in
  if k =? 119 then Some (false, [alnum; TChar 95]) else if k =? 87 then Some (true, [alnum; TChar 95])
  else if k =? 115 then Some (false, [space]) else if k =? 83 then Some (true, [space])
  else if k =? 100 then Some (false, [digit]) else if k =? 68 then Some (true, [digit])
  else None.

Definition pr_simple (a : simple) : list Z :=
  match a with
  | Chr c => [c]
  | Esc c => [92; c]
  | Ctl k _ => [92; k]
  | Hex2 a b => [92; 120; a; b]
  | Hexs hs => [92; 120; 123] ++ hs ++ [125]
  | Dot => [46]
  | At a => pr_at a
  | Set_ neg ts => [91] ++ pr_set neg ts
  | Cls k => [92; k]
  end.

(** An escaped character that says something else: the letters above, b B < > x and the digits (back references). *)
Definition escapes (c : Z) : bool :=
  existsb (Z.eqb c) [116; 110; 114; 102; 97; 101; 119; 87; 115; 83; 100; 68; 98; 66; 60; 62; 120] || isdigit c.

Definition wf_simple (L : loc) (a : simple) : Prop :=
  match a with
  | Chr c => is_char c /\ special c = false
  | Esc c => 0 < c < 128 /\ escapes c = false
  | Ctl k c => In (k, c) controls
  | Hex2 a b => is_hex a /\ is_hex b
  | Hexs hs => (length hs <= 8)%nat /\ Forall is_hex hs /\ hexs_value hs <= char_max
  | Dot | At _ => True
  | Set_ neg ts => wf_set L neg ts
  | Cls k => exists neg ts, cls_terms k = Some (neg, ts) /\ wf_set L neg ts
  end.

(** The characters that it matches (none for an assertion). *)
Definition takes (L : loc) (a : simple) (x : Z) : Prop :=
  match a with
  | Chr c => alike L c x
  | Esc c => x = c
  | Ctl _ c => alike L c x
  | Hex2 a b => x = 16 * hex_value a + hex_value b
  | Hexs hs => x = hexs_value hs
  | Dot => newline (l_env L) = true -> x <> 10
  | At _ => False
  | Set_ neg ts => in_set L neg ts x
  | Cls k => exists neg ts, cls_terms k = Some (neg, ts) /\ in_set L neg ts x
  end.

(** ** Patterns *)

Inductive rx :=
| XEmpty
| XSimple (a : simple)
| XGroup (r : rx)
| XTimes (r : rx) (d : times_of)
| XCat (x y : rx)
| XOr (x y : rx).

Fixpoint pr (r : rx) : list Z :=
  match r with
  | XEmpty => []
  | XSimple a => pr_simple a
  | XGroup r => [40] ++ pr r ++ [41]
  | XTimes r d => pr r ++ pr_times d
  | XCat x y => pr x ++ pr y
  | XOr x y => pr x ++ [124] ++ pr y
  end.

(** The grammar: a piece is a character, a group or a repeated piece; a branch is a sequence of pieces; a pattern is
    branches between bars. *)
Definition piece (r : rx) : Prop := match r with XSimple _ | XGroup _ | XTimes _ _ => True | _ => False end.
Definition branch (r : rx) : Prop := match r with XOr _ _ => False | _ => True end.
(** \xH followed by a hexadecimal digit would be read differently, so \x is always written with two. *)
Fixpoint wf (L : loc) (r : rx) : Prop :=
  match r with
  | XEmpty => True
  | XSimple a => wf_simple L a
  | XGroup r => wf L r
  | XTimes r d => piece r /\ wf L r /\ wf_times d
  | XCat x y => branch x /\ x <> XEmpty /\ piece y /\ wf L x /\ wf L y
  | XOr x y => branch y /\ wf L x /\ wf L y
  end.

(** The pattern matches the text from index i to index j. *)
Fixpoint means (L : loc) (txt : list Z) (r : rx) (i j : nat) : Prop :=
  match r with
  | XEmpty => i = j
  | XSimple (At a) => i = j /\ holds (l_env L) txt a i
  | XSimple a => j = S i /\ exists x, char_at txt i = Some x /\ takes L a x
  | XGroup r => means L txt r i j
  | XTimes r d => exists n, allows d n /\ times (means L txt r) n i j
  | XCat x y => exists k, means L txt x i k /\ means L txt y k j
  | XOr x y => means L txt x i j \/ means L txt y i j
  end.

(** ** Patterns that the engine searches as it should (see NfaSpec) *)

Definition not_zero (d : times_of) : Prop :=
  match d with Exactly n => value n <> 0 | Between _ m => value m <> 0 | _ => True end.
(** A count that is written out. *)
Definition written_out (d : times_of) : Prop :=
  match d with Star | Plus | Opt => False | Exactly n | From n => 1 < value n | Between _ m => 1 < value m end.
Definition may_be_zero (d : times_of) : Prop :=
  match d with Star | Opt => True | Plus => False | Exactly n | From n | Between n _ => value n = 0 end.

Definition has_class (a : simple) : Prop := match a with Set_ _ ts => filter is_class ts <> [] | Cls _ => True | _ => False end.
Definition is_assertion (a : simple) : Prop := match a with At _ => True | _ => False end.

(** Something holds of all the repetitions of the pattern. *)
Fixpoint all_times (P : rx -> times_of -> Prop) (r : rx) : Prop :=
  match r with
  | XEmpty | XSimple _ => True
  | XGroup r => all_times P r
  | XTimes r d => P r d /\ all_times P r
  | XCat x y | XOr x y => all_times P x /\ all_times P y
  end.
(** Something holds of all the single characters of the pattern. *)
Fixpoint all_simple (P : simple -> Prop) (r : rx) : Prop :=
  match r with
  | XEmpty => True
  | XSimple a => P a
  | XGroup r | XTimes r _ => all_simple P r
  | XCat x y | XOr x y => all_simple P x /\ all_simple P y
  end.
Fixpoint x_may_be_empty (r : rx) : Prop :=
  match r with
  | XEmpty => True
  | XSimple a => is_assertion a
  | XGroup r => x_may_be_empty r
  | XTimes r d => may_be_zero d \/ x_may_be_empty r
  | XCat x y => x_may_be_empty x /\ x_may_be_empty y
  | XOr x y => x_may_be_empty x \/ x_may_be_empty y
  end.
Fixpoint all_or (P : rx -> rx -> Prop) (r : rx) : Prop :=
  match r with
  | XEmpty | XSimple _ => True
  | XGroup r | XTimes r _ => all_or P r
  | XCat x y => all_or P x /\ all_or P y
  | XOr x y => P x y /\ all_or P x /\ all_or P y
  end.

(** No count of 0, no character class under a count, a count under at most one repetition, no assertion in a repeated part
    that can be empty, nor in the first of two alternatives that both can. *)
Definition plain_counts (r : rx) : Prop := all_times (fun _ d => not_zero d) r.
Definition no_counted_class (r : rx) : Prop := all_times (fun r d => written_out d -> all_simple (fun a => ~ has_class a) r) r.
Definition not_deep (r : rx) : Prop :=
  all_times (fun r _ => all_times (fun r _ => all_times (fun _ d => ~ written_out d) r) r) r.
Definition assertions_apart (r : rx) : Prop :=
  all_times (fun r _ => x_may_be_empty r -> all_simple (fun a => ~ is_assertion a) r) r
  /\ all_or (fun x y => x_may_be_empty x /\ x_may_be_empty y -> all_simple (fun a => ~ is_assertion a) x) r.
Definition searchable (r : rx) : Prop := plain_counts r /\ no_counted_class r /\ not_deep r /\ assertions_apart r.
