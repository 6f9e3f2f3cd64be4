(** * Model of the bitwise and shift operators on numbers: jsiEval.c
    Operands are numbers already (other operands are converted first, ValModel.v).  Conversions of doubles to
    integer types out of the target's range are undefined in ISO C; here they are what x86-64 compilers emit.
    Shifting a negative or overflowing int is what gcc defines it to be. *)
From Coq Require Import ZArith Bool SpecFloat.
Require Import Verif.NumModel.
Local Open Scope Z_scope.

(* the integer part of a finite double *)
Definition integer_part (x : num) : option Z :=
  match x with
  | S754_zero _ => Some 0
  | S754_finite s m e => let '(n, d) := frac m e in Some (if s then - (n / d) else n / d)
  | _ => None
  end.
Definition wrap (bits v : Z) : Z := (v + 2 ^ (bits - 1)) mod 2 ^ bits - 2 ^ (bits - 1).

(* (Jsi_UWide)x: cvttsd2si below 2^63 (NaN as well), else cvttsd2si of x - 2^63 with the top bit flipped *)
Definition cast_u64 (x : num) : Z :=
  match integer_part x with
  | Some v => if v <? 2 ^ 63 then (if v <? - 2 ^ 63 then 2 ^ 63 else v mod 2 ^ 64)
              else if v <? 2 ^ 64 then v else 0
  | None => match x with S754_infinity false => 0 | _ => 2 ^ 63 end
  end.
(* (int)x: cvttsd2si to 32 bits *)
Definition cast_int (x : num) : Z :=
  match integer_part x with
  | Some v => if (- 2 ^ 31 <=? v) && (v <? 2 ^ 31) then v else - 2 ^ 31
  | None => - 2 ^ 31
  end.
(* (unsigned int)x: cvttsd2si to 64 bits, the low half *)
Definition cast_uint (x : num) : Z := to_wide x mod 2 ^ 32.
(* an integer as a double *)
Definition of_int (z : Z) : num := to_double (z <? 0) (Z.abs z) 1.

(* jsi_ValueToOInt32 of a number: Jsi_ValueToNumberInt with isInt, jsiValue.c 625-628, 688-696 *)
Definition to_oint32 (x : num) : num := if is_normal x then of_int (to_wide x) else x.

Inductive bop := BAnd | BOr | BXor.
Definition zop (o : bop) : Z -> Z -> Z := match o with BAnd => Z.land | BOr => Z.lor | BXor => Z.lxor end.
(* common_bitwise_opr, jsiEval.c 229-238, 1590-1595; [strict] is checked before (an error: None) *)
Definition bitwise (strict : bool) (o : bop) (x y : num) : option num :=
  if strict && (is_nan x || is_nan y) then None
  else Some (of_int (zop o (cast_u64 x) (cast_u64 y))).

Inductive shift := Left | Right | URight.
(* OP_SHF, jsiEval.c 1596-1618 *)
Definition shf (s : shift) (x y : num) : num :=
  let t1 := cast_int (to_oint32 x) in
  let t2 := Z.land (cast_uint (to_oint32 y)) 31 in
  match s with
  | URight => of_int (Z.shiftr (t1 mod 2 ^ 32) t2)
  | Right => of_int (Z.shiftr t1 t2)
  | Left => of_int (wrap 32 (Z.shiftl t1 t2))
  end.

(* OP_BNOT, jsiEval.c 1424-1430 *)
Definition bnot (strict : bool) (x : num) : option num :=
  let v := to_oint32 x in
  if strict && is_nan v then None else Some (of_int (Z.lnot (cast_int v))).
