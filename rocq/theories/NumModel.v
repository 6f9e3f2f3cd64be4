(** Numbers to text and back: Jsi_NumberDtoA, Jsi_NumberToString, Number.toFixed and friends, with the
    printf and strtod conversions of ISO C (exact, rounded to nearest, ties to even). *)
From Coq Require Import ZArith List Bool SpecFloat.
From Verif Require Import UtfModel.
Import ListNotations.
Local Open Scope Z_scope.

(** A Jsi_Number is a double (jsi.h 45-54 without JSI__LONGDOUBLE): the standard library's description of
    a binary64 number. *)
Definition num := spec_float.

(** n/d rounded to an integer, ties to even *)
Definition round_even (n d : Z) : Z :=
  let q := n / d in let r := n mod d in
  if 2 * r <? d then q else if d <? 2 * r then q + 1 else if Z.even q then q else q + 1.
(** The fraction n/d times b^k *)
Definition scale (b : Z) (nd : Z * Z) (k : Z) : Z * Z :=
  if 0 <=? k then (fst nd * b ^ k, snd nd) else (fst nd, snd nd * b ^ (- k)).
Definition frac_le (a b : Z * Z) : bool := fst a * snd b <=? fst b * snd a.
(** The largest x with 10^x <= n/d, searched upwards from 0 or downwards from -1 *)
Fixpoint log_up (fuel : nat) (nd : Z * Z) (x : Z) : Z :=
  match fuel with
  | O => x
  | S f => if frac_le (scale 10 (1, 1) (x + 1)) nd then log_up f nd (x + 1) else x
  end.
Fixpoint log_down (fuel : nat) (nd : Z * Z) (x : Z) : Z :=
  match fuel with
  | O => x
  | S f => if frac_le (scale 10 (1, 1) x) nd then x else log_down f nd (x - 1)
  end.
Definition log10 (nd : Z * Z) : Z := if frac_le (1, 1) nd then log_up 400 nd 0 else log_down 400 nd (-1).

(** The digits of a number, most significant first (printf's %lld, %llu and the digits of the others) *)
Fixpoint udec (fuel : nat) (n : Z) (acc : list Z) : list Z :=
  match fuel with
  | O => acc
  | S f => let acc := 48 + n mod 10 :: acc in if n / 10 =? 0 then acc else udec f (n / 10) acc
  end.
Definition itoa10 (n : Z) : list Z := if n <? 0 then 45 :: udec 20 (- n) [] else udec 20 n [].

(** ** printf (ISO C 7.21.6.1, with a precision; the value is finite and not zero) *)
(** [sig p nd]: the exponent and the p digits of %.{p-1}e *)
Definition sig (p : Z) (nd : Z * Z) : Z * Z :=
  let x := log10 nd in
  let '(n, d) := scale 10 nd (p - 1 - x) in
  let k := round_even n d in
  if k =? 10 ^ p then (x + 1, 10 ^ (p - 1)) else (x, k).
Fixpoint strip_zeros (s : list Z) : list Z :=
  match s with
  | [] => []
  | c :: r => match strip_zeros r with
              | [] => if c =? 48 then [] else [c]
              | r' => c :: r'
              end
  end.
Definition point (f : list Z) : list Z := match f with [] => [] | _ => 46 :: f end.
Definition exponent (x : Z) : list Z :=
  101 :: (if x <? 0 then 45 else 43) :: (if Z.abs x <? 10 then [48] else []) ++ udec 20 (Z.abs x) [].
(** %.{p}g *)
Definition print_g (p : Z) (nd : Z * Z) : list Z :=
  let '(x, k) := sig p nd in
  let ds := udec (Z.to_nat p) k [] in
  if (-4 <=? x) && (x <? p) then
    if x <? 0 then 48 :: point (strip_zeros (repeat 48 (Z.to_nat (- x - 1)) ++ ds))
    else firstn (Z.to_nat (x + 1)) ds ++ point (strip_zeros (skipn (Z.to_nat (x + 1)) ds))
  else match ds with
       | [] => []
       | c :: r => c :: point (strip_zeros r) ++ exponent x
       end.

(** The absolute value of a finite number as a fraction *)
Definition frac (m : positive) (e : Z) : Z * Z := scale 2 (Zpos m, 1) e.

(** fpclassify and isnormal (ISO C 7.12.3) *)
Definition is_subnormal (x : num) : bool :=
  match x with S754_finite _ m _ => Zpos m <? 2 ^ 52 | _ => false end.
Definition is_nan (x : num) : bool := match x with S754_nan => true | _ => false end.
(** Jsi_NumberIsNormal, jsiNumber.c 8 *)
Definition is_normal (x : num) : bool :=
  match x with S754_zero _ => true | S754_finite _ _ _ => negb (is_subnormal x) | _ => false end.
(** The cast (Jsi_Wide)x of a finite number: truncated towards zero; a number out of range gives the
    smallest Jsi_Wide (what x86-64 does; undefined in ISO C). *)
Definition to_wide (x : num) : Z :=
  match x with
  | S754_finite s m e =>
      let '(n, d) := frac m e in
      let v := if s then - (n / d) else n / d in
      if (- 2 ^ 63 <=? v) && (v <? 2 ^ 63) then v else - 2 ^ 63
  | S754_zero _ => 0
  | _ => - 2 ^ 63
  end.
(** Jsi_NumberIsInteger, jsiNumber.c 25: the wide number, as a double, is the number itself.  The
    comparison of the double to_wide x (a power of two or below 2^53 in the cases that matter, so exact)
    with x is done on the exact values. *)
Definition is_integer (x : num) : bool :=
  match x with
  | S754_zero _ => true
  | S754_finite s m e =>
      is_normal x && let '(n, d) := frac m e in ((if s then - n else n) =? to_wide x * d)
  | _ => false
  end.

(** The precision Jsi_NumberDtoA uses (its argument prec is 0), jsiNumber.c 64-70; dm is
    __DBL_DECIMAL_DIG__ = 17. *)
Definition dtoa_prec (dblPrec : Z) : Z :=
  let dp := dblPrec - 1 in
  let prec := if dp <=? 0 then 17 + dp else dp in
  if prec <=? 0 then 16 else prec.
(** The default of the option, jsiInterp.c 1140 *)
Definition default_dblPrec : Z := 16.
Definition s_inf : list Z := [73; 110; 102; 105; 110; 105; 116; 121].
(** Jsi_NumberDtoA, jsiNumber.c 62-76, on numbers that are not zero, infinite or NaN.  The buffer
    (JSI_MAX_NUMBER_STRING, 100 or more bytes) is taken to be long enough. *)
Definition dtoa (dblPrec : Z) (x : num) : list Z :=
  match x with
  | S754_finite s m e => (if s then [45] else []) ++ print_g (dtoa_prec dblPrec) (frac m e)
  | _ => []
  end.
(** String(x), the JSI_VT_NUMBER case of Jsi_ValueToString, jsiValue.c 509-528.  A subnormal number
    falls through and gives the initial text undefined. *)
Definition num_to_string (dblPrec : Z) (x : num) : list Z :=
  if is_integer x then itoa10 (to_wide x)
  else if is_normal x then dtoa dblPrec x
  else match x with
  | S754_nan => [78; 97; 78]
  | S754_infinity false => s_inf
  | S754_infinity true => 45 :: s_inf
  | _ => [117; 110; 100; 101; 102; 105; 110; 101; 100]
  end.
(** JSON text of a number, jsiUtils.c 751-774 with isjson (Jsi_NumberIsWide implies Jsi_NumberIsInteger) *)
Definition num_to_json (dblPrec : Z) (x : num) : list Z :=
  if negb (is_normal x) then [110; 117; 108; 108]
  else if is_integer x then itoa10 (to_wide x)
  else dtoa dblPrec x.

(** ** strtod (ISO C 7.22.1.3) on decimal text *)
Definition digit (c : Z) : bool := (48 <=? c) && (c <=? 57).
Fixpoint span (s : list Z) : list Z * list Z :=
  match s with
  | c :: r => if digit c then let '(a, b) := span r in (c :: a, b) else ([], s)
  | [] => ([], [])
  end.
(** The number the digits write *)
Definition dec (s : list Z) : Z := fold_left (fun a c => 10 * a + (c - 48)) s 0.
(** n/d as a double, rounded to nearest, ties to even *)
Definition to_double (neg : bool) (n d : Z) : num :=
  if n =? 0 then S754_zero neg
  else
    let l0 := Z.log2 n - Z.log2 d in
    let l := if frac_le (scale 2 (1, 1) l0) (n, d) then l0 else l0 - 1 in
    let e := Z.max (-1074) (l - 52) in
    let '(n', d') := scale 2 (n, d) (- e) in
    let k := round_even n' d' in
    let '(k, e) := if k =? 2 ^ 53 then (2 ^ 52, e + 1) else (k, e) in
    match k with
    | Zpos m => if 971 <? e then S754_infinity neg else S754_finite neg m e
    | _ => S754_zero neg
    end.
Definition sspace (c : Z) : bool := (c =? 32) || ((9 <=? c) && (c <=? 13)).
Fixpoint skip_sp (s : list Z) : list Z :=
  match s with c :: r => if sspace c then skip_sp r else s | [] => [] end.
(** The optional exponent: its value and what follows *)
Definition read_exp (s : list Z) : Z * list Z :=
  match s with
  | c :: r =>
      if (c =? 101) || (c =? 69) then
        let '(neg, r') := match r with
                          | g :: r' => if g =? 45 then (true, r') else if g =? 43 then (false, r') else (false, r)
                          | [] => (false, r) end in
        match span r' with
        | ([], _) => (0, s)
        | (ds, r'') => (if neg then - dec ds else dec ds, r'')
        end
      else (0, s)
  | [] => (0, s)
  end.
(** The value and the rest of the text; None: a hexadecimal number, inf or nan (not modelled) *)
Definition strtod (s0 : list Z) : option (num * list Z) :=
  let s := skip_sp s0 in
  let '(neg, s) := match s with
                   | c :: r => if c =? 45 then (true, r) else if c =? 43 then (false, r) else (false, s)
                   | [] => (false, s) end in
  let c := at_ s 0 in
  if ((c =? 48) && ((at_ s 1 =? 120) || (at_ s 1 =? 88))) || (c =? 105) || (c =? 73) || (c =? 110) || (c =? 78) then None
  else
    let '(i, r) := span s in
    let '(f, r) := match r with
                   | c :: r' => if c =? 46 then span r' else ([], r)
                   | [] => ([], r) end in
    match i ++ f with
    | [] => Some (S754_zero false, s0)
    | ds => let '(x, r) := read_exp r in
            let '(n, d) := scale 10 (dec ds, 1) (x - Z.of_nat (length f)) in
            Some (to_double neg n d, r)
    end.
(** Number(s), the string case of Jsi_ValueToNumberInt, jsiValue.c 608-614 *)
Definition string_to_num (s : list Z) : option num :=
  match strtod s with
  | None => None
  | Some (x, []) => Some x
  | Some (_, _ :: _) => Some S754_nan
  end.

(** ** Number.toFixed, toExponential and toPrecision *)
(** %.{p}f (a double is below 10^400) *)
Definition print_f (p : Z) (nd : Z * Z) : list Z :=
  let '(n, d) := scale 10 nd p in
  let ds := udec (Z.to_nat (p + 400)) (round_even n d) [] in
  let ds := repeat 48 (Z.to_nat (p + 1) - length ds) ++ ds in
  let i := (length ds - Z.to_nat p)%nat in
  firstn i ds ++ point (skipn i ds).
(** %.{p}e *)
Definition print_e (p : Z) (nd : Z * Z) : list Z :=
  let '(x, k) := if fst nd =? 0 then (0, 0) else sig (p + 1) nd in
  let ds := udec (Z.to_nat (p + 1)) k [] in
  match repeat 48 (Z.to_nat (p + 1) - length ds) ++ ds with
  | [] => []
  | c :: r => c :: point r ++ exponent x
  end.
Definition negative (x : num) : bool := match x with S754_zero s | S754_infinity s | S754_finite s _ _ => s | S754_nan => false end.
Definition magn (x : num) : Z * Z := match x with S754_finite _ m e => frac m e | _ => (0, 1) end.
(** printf of a finite number with %f and %e; inf and nan otherwise *)
Definition printf_with (pr : Z * Z -> list Z) (x : num) : list Z :=
  match x with
  | S754_nan => [110; 97; 110]
  | S754_infinity s => (if s then [45] else []) ++ [105; 110; 102]
  | _ => (if negative x then [45] else []) ++ pr (magn x)
  end.
(** NumberToFixedCmd, jsiNumber.c 122-138 and NumberToExponentialCmd, 161-178: snprintf keeps the first
    JSI_MAX_NUMBER_STRING (100, jsi.h 219) characters. *)
Definition to_fixed (p : Z) (x : num) : list Z := firstn 100 (printf_with (print_f (Z.max 0 p)) x).
Definition to_exponential (p : Z) (x : num) : list Z := firstn 100 (printf_with (print_e (Z.max 0 p)) x).
(** NumberToPrecisionCmd, jsiNumber.c 140-159; None: the precision is out of range *)
Definition to_precision (p : Z) (x : num) : option (list Z) :=
  if (p <=? 0) || (100 <? p) then None
  else
    let s := firstn 199 (printf_with (print_f p) x) in
    let p := if negative x && negb (match x with S754_zero _ => true | _ => false end) then p + 1 else p in
    let s := firstn (Z.to_nat (p + 1)) s in
    Some (if at_ s (Z.to_nat p) =? 46 then firstn (Z.to_nat p) s else s).
