(** Comparison of script values: === (Jsi_ValueIsEqual), == (Jsi_ValueCmp without flags), the
    relational operators (jsiLogicLess).  A Jsi_Number is an IEEE double: the standard library's
    SpecFloat with precision 53 and emax 1024.  Strings are their bytes (the length is stored, so a
    NUL may be inside).  Objects are addresses; the heap says which wrap a primitive.  Conversion of
    a string to a number (strtod) and of a value to a string are parameters: the theorems hold for
    any such functions. *)
From Coq Require Import ZArith List Bool SpecFloat.
Import ListNotations.
Local Open Scope Z_scope.

Definition num := spec_float.
Inductive val := VUndef | VNull | VBool (b : bool) | VNum (x : num) | VStr (s : list Z) | VObj (a : Z).
(** Jsi_Obj: ot = JSI_OT_BOOL, JSI_OT_NUMBER, JSI_OT_STRING or another *)
Inductive obj := OBool (b : bool) | ONum (x : num) | OStr (s : list Z) | OOther.
Definition heap := Z -> obj.

(** strcmp: compares up to the first NUL; the sign of the result *)
Fixpoint strcmp (s t : list Z) : Z :=
  let a := match s with [] => 0 | c :: _ => c end in
  let b := match t with [] => 0 | c :: _ => c end in
  if a <? b then -1 else if b <? a then 1
  else if a =? 0 then 0
  else match s, t with _ :: s, _ :: t => strcmp s t | _, _ => 0 end.

(** Jsi_ValueIsBoolean / Jsi_GetBoolFromValue, jsiValue.c 372-392 *)
Definition get_bool (h : heap) (v : val) : option bool :=
  match v with
  | VBool b => Some b
  | VObj a => match h a with OBool b => Some b | _ => None end
  | _ => None
  end.
(** Jsi_ValueIsNumber / Jsi_GetNumberFromValue, jsiValue.c 405-419 *)
Definition get_num (h : heap) (v : val) : option num :=
  match v with
  | VNum x => Some x
  | VObj a => match h a with ONum x => Some x | _ => None end
  | _ => None
  end.
(** Jsi_ValueIsString / Jsi_ValueString, jsiValue.c 430-433 *)
Definition get_str (h : heap) (v : val) : option (list Z) :=
  match v with
  | VStr s => Some s
  | VObj a => match h a with OStr s => Some s | _ => None end
  | _ => None
  end.
Definition num_eq (x y : num) : bool := SFeqb x y.

(** Jsi_ValueIsEqual, jsiValue.c 776-802 *)
Definition is_equal (h : heap) (v1 v2 : val) : bool :=
  if match v1, v2 with VObj a, VObj b => a =? b | _, _ => false end then true
  else match v1, v2 with
  | VNull, VNull => true
  | VUndef, VUndef => true
  | _, _ =>
      match get_bool h v1, get_bool h v2 with
      | Some b1, Some b2 => Bool.eqb b1 b2
      | _, _ =>
          match get_num h v1, get_num h v2 with
          | Some x, Some y => num_eq x y
          | _, _ =>
              match get_str h v1, get_str h v2 with
              | Some s, Some t => (length s =? length t)%nat && (strcmp s t =? 0)
              | _, _ => false
              end
          end
      end
  end.

(** jsi_ValueToPrimitiveRes, jsiValue.c 867-893: an object that wraps nothing leaves the fresh
    (undefined) result value *)
Definition to_primitive_res (h : heap) (v : val) : val :=
  match v with
  | VObj a => match h a with OBool b => VBool b | ONum x => VNum x | OStr s => VStr s | OOther => VUndef end
  | _ => v
  end.
Definition SFone : num := S754_finite false 4503599627370496 (-52).
(** Jsi_ValueToNumberInt with isInt = 0, jsiValue.c 571-628 *)
Definition to_number (tonum : list Z -> num) (h : heap) (v : val) : num :=
  match v with
  | VBool b => if b then SFone else S754_zero false
  | VNull => S754_zero false
  | VObj a => match h a with
              | OBool b => if b then SFone else S754_zero false
              | ONum x => x
              | OStr s => tonum s
              | OOther => S754_zero false end
  | VUndef => S754_nan
  | VNum x => x
  | VStr s => tonum s
  end.
(** Conversion of a double to int.  Out of range (and NaN) it is undefined in C; here the value that
    x86-64 gives, INT_MIN. *)
Definition INT_MIN : Z := -2147483648.
Definition int_of_double (x : num) : Z :=
  match x with
  | S754_zero _ => 0
  | S754_infinity _ | S754_nan => INT_MIN
  | S754_finite s m e =>
      let v := if 0 <=? e then Zpos m * 2 ^ e else Zpos m / 2 ^ (- e) in
      let v := if s then - v else v in
      if (INT_MIN <=? v) && (v <=? 2147483647) then v else INT_MIN
  end.
Definition num_sub (x y : num) : num := SFsub 53 1024 x y.
(** The C type of a value (vt) *)
Definition vt (v : val) : Z :=
  match v with VUndef => 0 | VBool _ => 1 | VNum _ => 2 | VStr _ => 3 | VObj _ => 4 | VNull => 5 end.
Definition nullish (v : val) : bool := match v with VUndef | VNull => true | _ => false end.
(** Jsi_ValueCmp with flags 0, jsiValue.c 895-950, for two different value slots.  The difference
    of two object addresses is taken as exact (in C it is cut to an int). *)
Definition value_cmp (tonum : list Z -> num) (h : heap) (v1 v2 : val) : Z :=
  let '(v1, v2) := if vt v1 =? vt v2 then (v1, v2) else (to_primitive_res h v1, to_primitive_res h v2) in
  if negb (vt v1 =? vt v2) then
    if nullish v1 && nullish v2 then 0
    else int_of_double (num_sub (to_number tonum h v2) (to_number tonum h v1))
  else match v1, v2 with
  | VNum x, VNum y => if num_eq y x then 0 else if SFltb y x then -1 else 1
  | VBool b, VBool c => (if c then 1 else 0) - (if b then 1 else 0)
  | VStr s, VStr t => strcmp t s
  | VObj a, VObj b =>
      match h a, h b with
      | OStr s, OStr t => strcmp t s
      | _, _ => b - a
      end
  | _, _ => 0
  end.
(** a == b: OP_EQUAL, jsiEval.c 1568-1576 (v1 is the right operand) *)
Definition loose_equal tonum (h : heap) (a b : val) : bool := value_cmp tonum h b a =? 0.

(** jsiLogicLess, jsiEval.c 240-285: None is an error (only when strict), Some None the value
    undefined *)
Definition is_nan (x : num) : bool := match x with S754_nan => true | _ => false end.
Definition less (strict : bool) (tonum : list Z -> num) (tostr : val -> list Z) (h : heap) (v1 v2 : val)
    : option (option bool) :=
  if strict && ((vt v1 =? 0) || (vt v2 =? 0)) then None
  else match get_str h v1, get_str h v2 with
  | None, None =>
      let x := to_number tonum h v1 in
      let y := to_number tonum h v2 in
      if strict && (is_nan x || is_nan y) then None
      else if is_nan x || is_nan y then Some None
      else Some (Some (SFltb x y))
  | o1, o2 =>
      let s := match o1 with Some s => s | None => tostr v1 end in
      let t := match o2 with Some t => t | None => tostr v2 end in
      let r := strcmp s t in
      Some (Some (if 0 <? r then false else if r <? 0 then true else (length s <? length t)%nat))
  end.
(** OP_LESS, OP_GREATER, OP_LESSEQU, OP_GREATEREQU, jsiEval.c 1544-1567 (the negation of the field
    d.val leaves an undefined value undefined) *)
Definition neg (r : option (option bool)) : option (option bool) := option_map (option_map negb) r.
Definition op_less st tn ts h a b := less st tn ts h a b.
Definition op_greater st tn ts h a b := less st tn ts h b a.
Definition op_less_equ st tn ts h a b := neg (less st tn ts h b a).
Definition op_greater_equ st tn ts h a b := neg (less st tn ts h a b).
