(** Specification vocabulary for JSON: what it means for a token list to describe the input, and the
    values JSON can carry. *)
From Coq Require Import ZArith List Bool.
From Coq Require QArith Qabs SpecFloat.
From Verif Require Import UtfModel UtfSpec TreeModel TreeSpec JsonModel.
From Verif Require NumModel NumSpec.
Import ListNotations.
Local Open Scope Z_scope.

Definition container (t : tok) : Prop := tty t = Obj \/ tty t = Arr.
(** the character at an offset of the input *)
Definition char_at_ofs (js : list Z) (o c : Z) : Prop := 0 <= o /\ nth_error js (Z.to_nat o) = Some c.

(** token [a] (listed first) and token [b] do not overlap; [b] lies strictly inside [a] *)
Definition disjoint (a b : tok) : Prop := ten a <= tst b.
Definition nested_in (a b : tok) : Prop := tst a < tst b /\ ten b < ten a.

Definition nchildren (ts : list tok) (i : nat) : Z :=
  Z.of_nat (length (filter (fun t => tpar t =? Z.of_nat i) ts)).

Record well_nested (js : list Z) (ts : list tok) : Prop := {
  wn_bounds : forall i t, nth_error ts i = Some t -> 0 <= tst t <= ten t /\ ten t <= Z.of_nat (length js);
  wn_order : forall i j a b, (i < j)%nat -> nth_error ts i = Some a -> nth_error ts j = Some b -> tst a < tst b;
  wn_nest : forall i j a b, (i < j)%nat -> nth_error ts i = Some a -> nth_error ts j = Some b ->
    disjoint a b \/ (container a /\ nested_in a b);
  wn_object : forall i t, nth_error ts i = Some t -> tty t = Obj ->
    char_at_ofs js (tst t) 123 /\ char_at_ofs js (ten t - 1) 125;
  wn_array : forall i t, nth_error ts i = Some t -> tty t = Arr ->
    char_at_ofs js (tst t) 91 /\ char_at_ofs js (ten t - 1) 93;
  wn_string : forall i t, nth_error ts i = Some t -> tty t = Str ->
    char_at_ofs js (tst t - 1) 34 /\ char_at_ofs js (ten t) 34;
  (** the parent is the innermost container around the token *)
  wn_root : forall j b, nth_error ts j = Some b -> tpar b = -1 ->
    forall i a, (i < j)%nat -> nth_error ts i = Some a -> disjoint a b;
  wn_parent : forall j b, nth_error ts j = Some b -> tpar b <> -1 ->
    exists k p, tpar b = Z.of_nat k /\ (k < j)%nat /\ nth_error ts k = Some p /\ container p /\ nested_in p b /\
      forall i a, (k < i < j)%nat -> nth_error ts i = Some a -> disjoint a b;
  (** the size of a container is the number of its direct members *)
  wn_size : forall i t, nth_error ts i = Some t -> container t -> tsz t = nchildren ts i
}.

(** ** Values that JSON text can carry *)
Definition bmp (c : Z) : Prop := 0 < c < 0x10000.
(** a field name without double quote and backslash *)
Definition plain_key (k : list Z) : Prop := Forall (fun b => 0 < b < 256 /\ b <> 34 /\ b <> 92) k.

(** Numbers that text with the given dblPrec carries: 0 or a number that is not subnormal, not -0, and
    - 17 or more digits are printed, or
    - it is an integer, at least -2^63 and less than 2^63, or
    - it is read from text with no more digits than are printed, 15 or less. *)
Definition normal_number (x : NumModel.num) (v : QArith_base.Q) : Prop :=
  NumSpec.value x = Some v /\ NumSpec.double x /\ x <> SpecFloat.S754_zero true /\
  (QArith_base.Qeq v (QArith_base.inject_Z 0) \/ QArith_base.Qle NumSpec.min_normal (Qabs.Qabs v)).
Definition carried (dblPrec : Z) (x : NumModel.num) : Prop :=
  exists v, normal_number x v /\
  (17 <= NumModel.dtoa_prec dblPrec \/
   (exists z, QArith_base.Qeq v (QArith_base.inject_Z z) /\ - 2 ^ 63 <= z < 2 ^ 63) \/
   (exists s w, NumModel.dtoa_prec dblPrec <= 15 /\ NumSpec.writes s w /\ NumSpec.sig_digits (NumModel.dtoa_prec dblPrec) w /\
      QArith_base.Qle NumSpec.min_normal (Qabs.Qabs w) /\ QArith_base.Qlt (Qabs.Qabs w) NumSpec.max_finite /\
      NumModel.strtod s = Some (x, []))).

Inductive json_ok (dblPrec : Z) (maxArr : nat) : jval -> Prop :=
| ok_null : json_ok dblPrec maxArr JNull
| ok_bool b : json_ok dblPrec maxArr (JBool b)
| ok_num x : carried dblPrec x -> json_ok dblPrec maxArr (JNum x)
| ok_str cs : Forall bmp cs -> json_ok dblPrec maxArr (JStr (text cs))
| ok_arr l : Forall (json_ok dblPrec maxArr) l -> (length l + 18 <= maxArr)%nat -> json_ok dblPrec maxArr (JArr l)
| ok_obj l : Forall (fun kv => plain_key (fst kv)) l -> ascending strcmp (map fst l) ->
    Forall (fun kv => json_ok dblPrec maxArr (snd kv)) l -> json_ok dblPrec maxArr (JObj l).

(** nesting depth *)
Fixpoint depth (v : jval) : Z :=
  match v with
  | JArr l => fold_right (fun v m => Z.max (1 + depth v) m) 0 l
  | JObj l => fold_right (fun kv m => Z.max (1 + depth (snd kv)) m) 0 l
  | _ => 0
  end.

(** JSON text may give a field several times, in any order: trees as in [json_ok], but the fields of an
    object are just the list of those written down. *)
Inductive json_tree (dblPrec : Z) (maxArr : nat) : jval -> Prop :=
| jt_null : json_tree dblPrec maxArr JNull
| jt_bool b : json_tree dblPrec maxArr (JBool b)
| jt_num x : carried dblPrec x -> json_tree dblPrec maxArr (JNum x)
| jt_str cs : Forall bmp cs -> json_tree dblPrec maxArr (JStr (text cs))
| jt_arr l : Forall (json_tree dblPrec maxArr) l -> (length l + 18 <= maxArr)%nat -> json_tree dblPrec maxArr (JArr l)
| jt_obj l : Forall (fun kv => plain_key (fst kv)) l ->
    Forall (fun kv => json_tree dblPrec maxArr (snd kv)) l -> json_tree dblPrec maxArr (JObj l).

(** the field a list of fields gives for a name: the first, the last *)
Fixpoint first_field (k : list Z) (l : list (list Z * jval)) : option jval :=
  match l with
  | [] => None
  | (k', v) :: r => if eqb_list k k' then Some v else first_field k r
  end.
Definition last_field (k : list Z) (l : list (list Z * jval)) : option jval := first_field k (rev l).

(** [means v w]: [w] is the value that the written tree [v] stands for; an object has each of the
    names once, with what was written last for it. *)
Inductive means : jval -> jval -> Prop :=
| mn_null : means JNull JNull
| mn_bool b : means (JBool b) (JBool b)
| mn_num n : means (JNum n) (JNum n)
| mn_str s : means (JStr s) (JStr s)
| mn_arr l m : Forall2 means l m -> means (JArr l) (JArr m)
| mn_obj l m : ascending strcmp (map fst m) ->
    (forall k, last_field k l = None -> first_field k m = None) ->
    (forall k v, last_field k l = Some v -> exists w, first_field k m = Some w /\ means v w) ->
    means (JObj l) (JObj m).
