(** Models of Jsi_GetIndex (table lookup of names), jsi_StrIsBalanced, Number.toString(radix),
    parseInt and Jsi_GetWide / Jsi_GetInt.  Strings are lists of bytes without NUL. *)
From Coq Require Import ZArith List Bool.
Import ListNotations.
From Verif Require Import UtfModel.
From Verif Require JsonModel.
Local Open Scope Z_scope.

(** ** Name lookup *)
Definition tolower (c : Z) : Z := if (65 <=? c) && (c <=? 90) then c + 32 else c.
(** strcmp(c, s) = 0, strncmp(c, s, strlen(s)) = 0, strcasecmp, strncasecmp *)
Fixpoint same (f : Z -> Z) (c s : list Z) : bool :=
  match c, s with
  | [], [] => true
  | a :: c, b :: s => (f a =? f b) && same f c s
  | _, _ => false
  end.
Fixpoint starts (f : Z -> Z) (c s : list Z) : bool :=
  match s, c with
  | [], _ => true
  | b :: s, a :: c => (f a =? f b) && starts f c s
  | _, [] => false
  end.
Definition keep (c : Z) : Z := c.
(** The condition of the first loop, jsiUtils.c 2099-2105 *)
Definition cond1 (exact nocase : bool) (c s : list Z) : bool :=
  (tolower (at_ c 0) =? tolower (at_ s 0)) &&
  (if nocase then (if exact then same tolower c s else starts tolower c s)
   else if exact then same keep c s else starts keep c s).
(** jsiUtils.c 2096-2115: (index, dup) *)
Fixpoint pass1 (exact nocase : bool) (t : list (list Z)) (s : list Z) (i index : Z) : Z * bool :=
  match t with
  | [] => (index, false)
  | c :: t =>
      if cond1 exact nocase c s then
        if index <? 0 then pass1 exact nocase t s (i + 1) i else (index, true)
      else pass1 exact nocase t s (i + 1) index
  end.
(** jsiUtils.c 2131-2148: None is "ambiguous" *)
Fixpoint pass2 (t : list (list Z)) (s : list Z) (i index : Z) : option Z :=
  match t with
  | [] => Some index
  | c :: t =>
      if (at_ c 0 =? at_ s 0) && starts keep c s then
        if index <? 0 then
          if (length s =? length c)%nat then Some i else pass2 t s (i + 1) i
        else None
      else pass2 t s (i + 1) index
  end.
(** Jsi_GetIndex, jsiUtils.c 2081-2165; None is JSI_ERROR *)
Definition get_index (exact nocase : bool) (t : list (list Z)) (s : list Z) : option Z :=
  let '(index, dup) := pass1 exact nocase t s 0 (-1) in
  if (0 <=? index) && negb dup then Some index
  else if exact && (dup || (index <=? 0)) then None
  else match pass2 t s 0 (-1) with
       | Some index => if 0 <=? index then Some index else None
       | None => None
       end.

(** ** jsi_StrIsBalanced, jsiUtils.c 940-963 *)
Fixpoint balance (s : list Z) (cnt quote : Z) : Z * Z :=
  match s with
  | [] => (cnt, quote)
  | c :: r =>
      if c =? 92 then match r with [] => (cnt, quote) | _ :: r => balance r cnt quote end
      else if (c =? 123) || (c =? 40) || (c =? 91) then balance r (cnt + 1) quote
      else if (c =? 39) || (c =? 34) then balance r cnt (quote + 1)
      else if (c =? 125) || (c =? 41) || (c =? 93) then balance r (cnt - 1) quote
      else balance r cnt quote
  end.
Definition is_balanced (s : list Z) : bool :=
  let '(cnt, quote) := balance s 0 0 in (quote mod 2 =? 0) && (cnt <=? 0).

(** ** Numbers as text *)
Definition isspace : Z -> bool := JsonModel.isspace.
Definition two64 : Z := 18446744073709551616.
Definition LLONG_MAX : Z := 9223372036854775807.
Definition LLONG_MIN : Z := -9223372036854775808.
(** Digit value for strtoll and friends (C locale) *)
Definition digit_value (c : Z) : Z :=
  if (48 <=? c) && (c <=? 57) then c - 48
  else if (97 <=? c) && (c <=? 122) then c - 87
  else if (65 <=? c) && (c <=? 90) then c - 55
  else 99.
(** The digits at the front: the value and the rest *)
Fixpoint digits (base : Z) (s : list Z) (acc : Z) : Z * list Z :=
  match s with
  | c :: r => if digit_value c <? base then digits base r (acc * base + digit_value c) else (acc, s)
  | [] => (acc, s)
  end.
Fixpoint skip_space (s : list Z) : list Z :=
  match s with c :: r => if isspace c then skip_space r else s | [] => [] end.
(** Common part of strtoll and strtoull (ISO C 7.22.1.4): spaces, sign, an optional 0x when the
    base is 16, digits.  None: no conversion (the end pointer is then the start); otherwise the
    sign, the magnitude and the rest. *)
Definition strto (base : Z) (s : list Z) : option (bool * Z * list Z) :=
  let s := skip_space s in
  let '(neg, s) := match s with
                    | c :: r => if c =? 45 then (true, r) else if c =? 43 then (false, r) else (false, s)
                    | [] => (false, s) end in
  let s := match s with
           | z :: x :: d :: r =>
               if (z =? 48) && (base =? 16) && ((x =? 120) || (x =? 88)) && (digit_value d <? 16) then d :: r else s
           | _ => s end in
  match s with
  | c :: _ => if digit_value c <? base then
                let '(v, r) := digits base s 0 in Some (neg, v, r)
              else None
  | [] => None
  end.
Definition strtoll (base : Z) (s : list Z) : Z :=
  match strto base s with
  | None => 0
  | Some (neg, v, _) => let v := if neg then - v else v in
      if v <? LLONG_MIN then LLONG_MIN else if LLONG_MAX <? v then LLONG_MAX else v
  end.
(** strtoull: the negated value modulo 2^64; ULLONG_MAX when the magnitude is too large.  The
    result and the rest of the string (None: no conversion). *)
Definition strtoull (base : Z) (s : list Z) : Z * option (list Z) :=
  match strto base s with
  | None => (0, None)
  | Some (neg, v, r) =>
      (if two64 <=? v then two64 - 1 else if neg then (- v) mod two64 else v, Some r)
  end.

(** printf of an integer: %d (PRId64), %x (PRIx64), %o (PRIo64) *)
Definition digit_char (d : Z) : Z := if d <? 10 then 48 + d else 87 + d.
Fixpoint udigits (fuel : nat) (base n : Z) (acc : list Z) : list Z :=
  match fuel with
  | O => acc
  | S fuel => let acc := digit_char (n mod base) :: acc in
              if n / base =? 0 then acc else udigits fuel base (n / base) acc
  end.
Definition print_u (base n : Z) : list Z := udigits 64 base n [].
Definition print_d (n : Z) : list Z := if n <? 0 then 45 :: print_u 10 (- n) else print_u 10 n.

(** NumberToStringCmd, jsiNumber.c 190-212, for a number that is an integer n of at most 63 bits
    (and so exactly a Jsi_Wide).  Other radixes print in decimal (jsi_ObjectToStringCmd; for an
    integer Jsi_NumberToString is PRId64, jsiValue.c 466-470).  None is JSI_ERROR. *)
Definition number_to_string (n radix : Z) : option (list Z) :=
  if radix <? 2 then None
  else if radix =? 16 then Some (print_u 16 (n mod two64))
  else if radix =? 8 then Some (print_u 8 (n mod two64))
  else Some (print_d n).
(** parseIntCmd, jsiCmds.c 550-592, for a string argument: base given ([Some]) or not.  Without a
    base and a leading 0 it is Jsi_ValueToNumberInt, not modelled ([None] of the outer option).  The
    inner None is JSI_ERROR.  The conversion to double and back is the identity up to 2^53. *)
Definition parse_int (s : list Z) (base : option Z) : option (option Z) :=
  if (at_ s 0 =? 48) && (at_ s 1 =? 120) then Some (Some (strtoll 16 s))
  else match base with
  | None => if at_ s 0 =? 48 then Some (Some (strtoll 8 s)) else None
  | Some b => if (b <? 2) || (36 <? b) then Some None else Some (Some (strtoll b s))
  end.

(** JsiCheckConversion, jsiUtils.c 2346-2362: endptr None is endptr == str *)
Definition check_conversion (s : list Z) (endp : option (list Z)) : bool :=
  match s, endp with
  | [], _ => false
  | _, None => false
  | _, Some r => forallb isspace r
  end.
(** JsiNumberBase, jsiUtils.c 2364-2404: (offset, base, sign) *)
Definition number_base (s : list Z) : nat * Z * Z :=
  let i := (length s - length (skip_space s))%nat in
  let '(i, sign) := if at_ s i =? 45 then (S i, -1) else if at_ s i =? 43 then (S i, 1) else (i, 1) in
  if negb (at_ s i =? 48) then (O, 10, sign)
  else
    let x := at_ s (S i) in
    let base := if (x =? 120) || (x =? 88) then 16
                else if (x =? 111) || (x =? 79) then 8
                else if (x =? 98) || (x =? 66) then 2 else 10 in
    if base =? 10 then (O, 10, sign)
    else
      let i := S (S i) in
      if negb (at_ s i =? 45) && negb (at_ s i =? 43) && negb (isspace (at_ s i)) then (i, base, sign)
      else (10%nat, base, sign).
(** Wrap to a Jsi_Wide (64 bits) or an int (32 bits) *)
Definition wrap (bits v : Z) : Z := let m := 2 ^ bits in let r := v mod m in if r <? m / 2 then r else r - m.
(** jsi_strtoull, jsiUtils.c 2409-2427; the outer None: it reads behind the end of the string *)
Definition jsi_strtoull (s : list Z) : option (Z * option (list Z)) :=
  let '(i, base, sign) := number_base s in
  if negb (base =? 10) then
    if (length s <? i)%nat then None
    else match strtoull base (skipn i s) with
         | (v, Some r) => Some (wrap 64 (wrap 64 v * sign), Some r)
         | (_, None) => let '(v, r) := strtoull 10 s in Some (wrap 64 v, r)
         end
  else let '(v, r) := strtoull 10 s in Some (wrap 64 v, r).
(** Jsi_GetWide with base 0, jsiUtils.c 2450-2462: outer None reads out of bounds, inner None error *)
Definition get_wide (s : list Z) : option (option Z) :=
  match jsi_strtoull s with
  | None => None
  | Some (v, r) => Some (if check_conversion s r then Some v else None)
  end.
(** Jsi_GetInt with base 0, jsiUtils.c 2464-2474 (unsigned long has 64 bits) *)
Definition get_int (s : list Z) : option (option Z) :=
  match jsi_strtoull s with
  | None => None
  | Some (v, r) => Some (if check_conversion s r then Some (wrap 32 v) else None)
  end.
(** Jsi_GetBool, jsiUtils.c 2488-2502 *)
Definition get_bool (s : list Z) : option bool :=
  match s with
  | [] => None
  | _ => if starts tolower [116; 114; 117; 101] s then Some true
         else if starts tolower [102; 97; 108; 115; 101] s then Some false
         else None
  end.
