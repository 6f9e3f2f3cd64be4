(** What a decimal text writes, which number a double is, and what "nearest" means. *)
From Coq Require Import ZArith QArith Qpower Qabs List SpecFloat.
Import ListNotations.
Local Open Scope Q_scope.

(** The doubles: normal and subnormal mantissa and exponent *)
Definition mant (m : positive) (e : Z) : Prop :=
  (2 ^ 52 <= Zpos m < 2 ^ 53 /\ -1074 <= e <= 971)%Z \/ (Zpos m < 2 ^ 52 /\ e = -1074)%Z.
Definition double (x : spec_float) : Prop := match x with S754_finite _ m e => mant m e | _ => True end.
(** The rational number a finite double stands for *)
Definition value (x : spec_float) : option Q :=
  match x with
  | S754_zero _ => Some 0
  | S754_finite s m e => Some (inject_Z (if s then Zneg m else Zpos m) * 2 ^ e)
  | _ => None
  end.
Definition even_mant (x : spec_float) : Prop :=
  match x with S754_finite _ m _ => Z.even (Zpos m) = true | _ => True end.
(** x is the double nearest to v; of two nearest ones the even one *)
Definition nearest (x : spec_float) (v : Q) : Prop :=
  exists q, value x = Some q /\ double x /\
    (forall y w, double y -> value y = Some w -> Qabs (q - v) <= Qabs (w - v)) /\
    (forall y w, double y -> value y = Some w -> ~ w == q -> Qabs (q - v) == Qabs (w - v) -> even_mant x).

(** The natural number that decimal digits write *)
Definition digits (s : list Z) : Prop := Forall (fun c => 48 <= c <= 57)%Z s.
Definition decimal (s : list Z) : Z := fold_left (fun a c => 10 * a + (c - 48))%Z s 0%Z.
(** [exponent_text s x]: nothing, or e or E with a signed number *)
Inductive exponent_text : list Z -> Z -> Prop :=
| et_none : exponent_text [] 0
| et_plus : forall c g ds, In c [101; 69]%Z -> In g [[]; [43%Z]] -> digits ds -> ds <> [] ->
    exponent_text (c :: g ++ ds) (decimal ds)
| et_minus : forall c ds, In c [101; 69]%Z -> digits ds -> ds <> [] ->
    exponent_text (c :: 45%Z :: ds) (- decimal ds).
(** [magnitude s v]: s is digits with an optional decimal point and exponent, and writes v *)
Inductive magnitude : list Z -> Q -> Prop :=
| mg_int : forall i ex x, digits i -> i <> [] -> exponent_text ex x ->
    magnitude (i ++ ex) (inject_Z (decimal i) * 10 ^ x)
| mg_frac : forall i f ex x, digits i -> digits f -> i ++ f <> [] -> exponent_text ex x ->
    magnitude (i ++ 46%Z :: f ++ ex) (inject_Z (decimal (i ++ f)) * 10 ^ (x - Z.of_nat (length f))).
(** with an optional sign *)
Inductive writes : list Z -> Q -> Prop :=
| wr_plain : forall s v, magnitude s v -> writes s v
| wr_plus : forall s v, magnitude s v -> writes (43%Z :: s) v
| wr_minus : forall s v, magnitude s v -> writes (45%Z :: s) (- v).

(** A decimal number with at most p significant digits *)
Definition sig_digits (p : Z) (w : Q) : Prop := exists k j : Z, (Z.abs k < 10 ^ p)%Z /\ w == inject_Z k * 10 ^ j.

(** Magnitudes from here on round to infinity; magnitudes below [min_normal] are subnormal *)
Definition max_finite : Q := inject_Z (2 ^ 1024 - 2 ^ 970).
Definition min_normal : Q := 2 ^ (-1022).
(** [stop r]: a number's text cannot go on with r *)
Definition stop (r : list Z) : Prop :=
  match r with c :: _ => ~ (48 <= c <= 57)%Z /\ ~ In c [46; 101; 69; 120; 88]%Z | [] => True end.
Definition blanks (s : list Z) : Prop := Forall (fun c => In c [32; 9; 10; 11; 12; 13]%Z) s.
