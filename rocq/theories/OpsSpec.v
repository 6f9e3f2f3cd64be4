(** * Specification of the bitwise and shift operators: ECMA-262, ToInt32, ToUint32 *)
From Coq Require Import ZArith QArith Qround SpecFloat.
Require Import Verif.NumSpec.
Local Open Scope Z_scope.

(* truncation towards zero *)
Definition truncate (q : Q) : Z := if Qle_bool 0 q then Qfloor q else - Qfloor (- q).
(* ToUint32 and ToInt32 *)
Definition uint32 (x : spec_float) : Z :=
  match value x with Some q => truncate q mod 2 ^ 32 | None => 0 end.
Definition int32 (x : spec_float) : Z := if uint32 x <? 2 ^ 31 then uint32 x else uint32 x - 2 ^ 32.
(* the same for an integer: the int32 with the same low 32 bits *)
Definition low32 (z : Z) : Z := if z mod 2 ^ 32 <? 2 ^ 31 then z mod 2 ^ 32 else z mod 2 ^ 32 - 2 ^ 32.

(* the double is this integer *)
Definition is_int (r : spec_float) (z : Z) : Prop := double r /\ exists q, value r = Some q /\ (q == inject_Z z)%Q.
(* x is a number between two bounds (the upper one is excluded) *)
Definition between (lo hi : Z) (x : spec_float) : Prop :=
  double x /\ exists q, value x = Some q /\ (inject_Z lo <= q)%Q /\ (q < inject_Z hi)%Q.
(* its integer part *)
Definition int_part (x : spec_float) (z : Z) : Prop := exists q, value x = Some q /\ z = truncate q.

(* <<, >>, >>> *)
Definition js_shl (x y : spec_float) : Z := low32 (int32 x * 2 ^ (uint32 y mod 32)).
Definition js_shr (x y : spec_float) : Z := int32 x / 2 ^ (uint32 y mod 32).
Definition js_ushr (x y : spec_float) : Z := uint32 x / 2 ^ (uint32 y mod 32).
