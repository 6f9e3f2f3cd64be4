(** Numbers as rationals; when two values are the same. *)
From Coq Require Import ZArith QArith Qpower List SpecFloat.
Import ListNotations.
From Verif Require Import ValModel.

(** The rational number a finite double stands for: (-1)^s * m * 2^e *)
Definition value_of (x : num) : option Q :=
  match x with
  | S754_zero _ => Some 0%Q
  | S754_finite s m e => Some (inject_Z (if s then Z.neg m else Z.pos m) * Qpower 2 e)%Q
  | _ => None
  end.
(** A bit pattern of a double: mantissa below 2^53 and normalised, exponent in range *)
Definition double (x : num) : Prop := valid_binary 53 1024 x = true.
Definition no_nul (s : list Z) : Prop := Forall (fun c => 1 <= c <= 255)%Z s.
(** The primitive behind a wrapper object, if any *)
Definition unwrap (h : heap) (v : val) : val :=
  match v with
  | VObj a => match h a with OBool b => VBool b | ONum x => VNum x | OStr s => VStr s | OOther => v end
  | _ => v
  end.
(** Two values without objects that are the same: numbers by value (+0 is -0, NaN is not NaN) *)
Inductive same : val -> val -> Prop :=
| same_undef : same VUndef VUndef
| same_null : same VNull VNull
| same_bool : forall b, same (VBool b) (VBool b)
| same_str : forall s, same (VStr s) (VStr s)
| same_num : forall x y p q, value_of x = Some p -> value_of y = Some q -> (p == q)%Q -> same (VNum x) (VNum y)
| same_inf : forall s, same (VNum (S754_infinity s)) (VNum (S754_infinity s))
| same_obj : forall a, same (VObj a) (VObj a).
(** Alphabetical order of byte strings *)
Inductive before : list Z -> list Z -> Prop :=
| before_end : forall c s, before [] (c :: s)
| before_char : forall a b s t, (a < b)%Z -> before (a :: s) (b :: t)
| before_next : forall a s t, before s t -> before (a :: s) (a :: t).
(** The number that a value other than a string stands for: null and false 0, true 1, wrappers what they wrap,
    other objects 0 *)
Inductive numeric (h : heap) : val -> Q -> Prop :=
| nu_null : numeric h VNull 0
| nu_false : numeric h (VBool false) 0
| nu_true : numeric h (VBool true) 1
| nu_num : forall x p, value_of x = Some p -> numeric h (VNum x) p
| nu_wrapped : forall a p, unwrap h (VObj a) <> VObj a -> (forall s, h a <> OStr s) -> numeric h (unwrap h (VObj a)) p -> numeric h (VObj a) p
| nu_object : forall a, h a = OOther -> numeric h (VObj a) 0.
