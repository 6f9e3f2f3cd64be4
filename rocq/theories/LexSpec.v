(** What the tokens of a program are. *)
From Coq Require Import ZArith List Bool String Ascii.
Import ListNotations.
From Verif Require Import UtfSpec MiscSpec LexModel.
Local Open Scope Z_scope.
Local Open Scope list_scope.

(** The bytes of a string literal of this file *)
Definition txt (s : string) : list Z := map (fun a => Z.of_nat (nat_of_ascii a)) (list_ascii_of_string s).

Definition white (c : Z) : Prop := c = 32 \/ c = 9 \/ c = 10 \/ c = 13.
Definition digit (c : Z) : Prop := 48 <= c <= 57.
Definition letter (c : Z) : Prop := 65 <= c <= 90 \/ 97 <= c <= 122 \/ c = 95 \/ c = 36.   (* with _ and $ *)
Definition hexdigit (c : Z) : Prop := digit c \/ 65 <= c <= 70 \/ 97 <= c <= 102.
(** [r] does not begin with a character that satisfies [P] *)
Definition not_next (P : Z -> Prop) (r : list Z) : Prop := match r with [] => True | c :: _ => ~ P c end.

(** String literals: [spells q lit s], the characters [lit] between two quotes [q] denote the bytes [s].  A
    backslash makes b f n r t 0 a control character, \u and four hexadecimal digits a character, and quotes
    everything else.  (Byte 255 never occurs in text.) *)
Definition escaped (n v : Z) : Prop :=
  (n = 98 /\ v = 8) \/ (n = 102 /\ v = 12) \/ (n = 110 /\ v = 10) \/ (n = 114 /\ v = 13) \/ (n = 116 /\ v = 9) \/
  (n = 48 /\ v = 0) \/ (~ In n [98; 102; 110; 114; 116; 48; 117] /\ v = n).
Inductive spells (q : Z) : list Z -> list Z -> Prop :=
| sp_end : spells q [] []
| sp_char : forall c lit s, 0 < c < 255 -> c <> q -> c <> 92 -> spells q lit s -> spells q (c :: lit) (c :: s)
| sp_escape : forall n v lit s, 0 < n < 255 -> escaped n v -> spells q lit s -> spells q (92 :: n :: lit) (v :: s)
| sp_unicode : forall a b c d u lit s, numeral 16 [a; b; c; d] u -> spells q lit s ->
    spells q (92 :: 117 :: a :: b :: c :: d :: lit) (utf8 u ++ s).

(** Decimal numbers: digits with a point or not, and an exponent or not; a zero at the beginning only before a
    point *)
Inductive exponent : list Z -> Prop :=
| ex_none : exponent []
| ex_plain : forall e ds, (e = 69 \/ e = 101) -> ds <> [] -> Forall digit ds -> exponent (e :: ds)
| ex_signed : forall e s ds, (e = 69 \/ e = 101) -> (s = 43 \/ s = 45) -> ds <> [] -> Forall digit ds -> exponent (e :: s :: ds).
Inductive decimal : list Z -> Prop :=
| dec_int : forall d ds ex, digit d -> d <> 48 -> Forall digit ds -> exponent ex -> decimal (d :: ds ++ ex)
| dec_frac : forall d ds fs ex, digit d -> (d = 48 -> ds = []) -> Forall digit ds -> Forall digit fs -> exponent ex ->
    decimal (d :: ds ++ 46 :: fs ++ ex)
| dec_point : forall f fs ex, digit f -> Forall digit fs -> exponent ex -> decimal (46 :: f :: fs ++ ex).
(** What may not follow directly after a number [w] *)
Definition number_goes_on (w : list Z) (c : Z) : Prop :=
  hexdigit c \/ c = 46 \/ c = 112 \/ c = 80 \/ (w = [48] /\ (c = 120 \/ c = 88)) \/
  ((c = 43 \/ c = 45) /\ exists v, w = v ++ [101] \/ w = v ++ [69]).

(** Regular expressions between slashes: no slash except after a backslash *)
Inductive regex_body : list Z -> Prop :=
| rb_end : regex_body []
| rb_char : forall c b, 0 < c < 255 -> c <> 47 -> c <> 92 -> regex_body b -> regex_body (c :: b)
| rb_quoted : forall c b, 0 < c < 255 -> regex_body b -> regex_body (92 :: c :: b).

(** Operators of several characters *)
Definition operators : list (list Z) := map txt
 ["++"; "--"; "&&"; "||"; "=="; "!="; "==="; "!=="; "<="; ">="; "<<"; ">>"; ">>>";
  "+="; "-="; "*="; "/="; "%="; "&="; "|="; "^="; "<<="; ">>="; ">>>="; "=>"]%string.
(** Words that are not identifiers *)
Definition reserved : list (list Z) := map txt
 ["if"; "else"; "for"; "in"; "of"; "while"; "do"; "continue"; "break"; "switch"; "case"; "default"; "function"; "return";
  "var"; "let"; "const"; "new"; "delete"; "try"; "catch"; "throw"; "finally"; "with"; "undefined"; "true"; "false";
  "null"; "this"; "arguments"; "void"; "typeof"; "instanceof"; "string"; "number"; "regexp"; "any"; "userobj";
  "iterobj"; "object"; "boolean"; "array"; "export"; "set"; "get"; "debugger"]%string.
(** Text [r] after an operator: a newline among its first [n] characters has only white space before it *)
Definition early_newline_harmless (n : nat) (r : list Z) : Prop :=
  forall a b, firstn n r = a ++ 10 :: b -> Forall white a.
(** Other characters: not white space, letters, digits or quotes *)
Definition symbol (c : Z) : Prop :=
  0 < c < 128 /\ ~ white c /\ ~ digit c /\ ~ letter c /\ ~ In c [34; 39; 96].

Section Spec.
Variable D : Type.
Variable of_ll : Z -> D.
Variable strtod : list Z -> D * list Z.
Variable re_ok : list Z -> bool.
Let tok := tok D.
Arguments TNum {D}. Arguments TStr {D}. Arguments TKey {D}. Arguments TIdent {D}. Arguments TRegex {D}. Arguments TSign {D}.

(** After these a slash begins a regular expression *)
Definition regex_may_follow (t : tok) : Prop :=
  match t with
  | TEnd _ | TErr _ => True                                           (* at the beginning *)
  | TSign s => In s [[61]; [40]; [58]; [63]; [44]; [91]; [123]]       (* = ( : ? , [ { *)
  | _ => False
  end.
(** A slash that begins neither a comment nor a regular expression *)
Definition slash_divides (prev : tok) (s : list Z) : Prop :=
  match s with
  | c :: r => c = 47 -> ~ regex_may_follow prev /\ not_next (fun c => c = 47 \/ c = 42) r
  | [] => True
  end.

(** [lexeme prev lit t r]: after the token prev, the text lit followed by r is the token t *)
Inductive lexeme (prev : tok) : list Z -> tok -> list Z -> Prop :=
| lx_word : forall c w r, letter c -> Forall (fun c => letter c \/ digit c) w -> (List.length (c :: w) < 1020)%nat ->
    not_next (fun c => letter c \/ digit c) r ->
    lexeme prev (c :: w) (if in_dec (list_eq_dec Z.eq_dec) (c :: w) reserved then TKey (c :: w) else TIdent (c :: w)) r
| lx_string : forall q lit s r, In q [34; 39; 96] -> spells q lit s -> lexeme prev (q :: lit ++ [q]) (TStr s) r
| lx_zero : forall r, not_next (number_goes_on [48]) r -> lexeme prev [48] (TNum (of_ll 0)) r
| lx_decimal : forall w r, decimal w -> (List.length w <= 1020)%nat -> not_next (number_goes_on w) r ->
    lexeme prev w (TNum (fst (strtod w))) r
| lx_hex : forall x w n r, x = 120 \/ x = 88 -> numeral 16 w n -> n <= 9223372036854775807 -> (List.length w <= 1018)%nat ->
    not_next (number_goes_on (48 :: x :: w)) r -> lexeme prev (48 :: x :: w) (TNum (of_ll n)) r
| lx_octal : forall w n r, numeral 8 w n -> n <= 9223372036854775807 -> (List.length w <= 1019)%nat ->
    not_next (number_goes_on (48 :: w)) r -> lexeme prev (48 :: w) (TNum (of_ll n)) r
| lx_regex : forall b fl r, regex_may_follow prev -> regex_body b -> b <> [] -> hd 0 b <> 42 ->
    Forall (fun c => (letter c /\ c <> 95 /\ c <> 36) \/ digit c) fl ->
    not_next (fun c => (letter c /\ c <> 95 /\ c <> 36) \/ digit c) r ->
    re_ok (47 :: b ++ 47 :: fl) = true -> Z.of_nat (List.length (47 :: b ++ 47 :: fl)) < 8187 ->
    lexeme prev (47 :: b ++ 47 :: fl) (TRegex (47 :: b ++ 47 :: fl)) r
(** the longest operator *)
| lx_operator : forall s r, In s operators ->
    (forall s' r', In s' operators -> s ++ r = s' ++ r' -> (List.length s' <= List.length s)%nat) ->
    slash_divides prev (s ++ r) -> early_newline_harmless (4 - List.length s) r ->
    lexeme prev s (TSign s) r
| lx_symbol : forall c r, symbol c -> (forall s' r', In s' operators -> c :: r <> s' ++ r') ->
    (c = 46 -> not_next digit r) -> slash_divides prev (c :: r) -> early_newline_harmless 3 r ->
    lexeme prev [c] (TSign [c]) r.

(** [tokens prev s ts]: after prev, the text s consists of the tokens ts, with white space and comments *)
Inductive tokens (prev : tok) : list Z -> list tok -> Prop :=
| tk_end : forall w, Forall white w -> tokens prev w []
| tk_token : forall w lit t r ts, Forall white w -> lexeme prev lit t r -> tokens t r ts ->
    tokens prev (w ++ lit ++ r) (t :: ts)
| tk_line : forall w b e r ts, Forall white w -> Forall (fun c => c <> 10 /\ c <> 13 /\ 0 < c) b -> e = 10 \/ e = 13 ->
    tokens prev r ts -> tokens prev (w ++ 47 :: 47 :: b ++ e :: r) ts
| tk_last_line : forall w b, Forall white w -> Forall (fun c => c <> 10 /\ c <> 13 /\ 0 < c) b ->
    tokens prev (w ++ 47 :: 47 :: b) []
| tk_block : forall w b r ts, Forall white w -> Forall (fun c => 0 < c) b ->
    (forall x y, b ++ [42] <> x ++ 42 :: 47 :: y) ->
    tokens prev r ts -> tokens prev (w ++ 47 :: 42 :: b ++ 42 :: 47 :: r) ts.
End Spec.
