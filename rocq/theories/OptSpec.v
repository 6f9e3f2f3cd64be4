(** * Specification: options *)
From Coq Require Import ZArith List Bool SpecFloat.
Import ListNotations.
Require Import Verif.StrModel Verif.NumModel Verif.OpsModel Verif.OptModel.
Local Open Scope Z_scope.
Local Notation str := (list Z).

(** ** Names *)
(** A name stands for an option: it is its name, or a proper start of it. *)
Definition exactly (n : str) (s : spec) : Prop := sname s = n.
Definition longer (n : str) (s : spec) : Prop := exists r, r <> [] /\ sname s = n ++ r.

(** ** Layout: how many bytes an option has from its offset on, and when a table is laid out properly. *)
Fixpoint extent (s : spec) : Z :=
  match s with
  | Leaf h k => match k with LBool => 1 | LInt k _ => Z.of_nat k | LNum | LVal _ => 8 | LStrbuf | LEnum _ _ _ _ | LBitset _ _ => size h end
  | Sub h l => (fix go l := match l with [] => 0 | s :: r => Z.max (off (hd_of s) + extent s) (go r) end) l
  | Arr h n item => n * (size (hd_of item) / n)
  end.
(** The bytes of an option of a record at a. *)
Definition inside (a : Z) (s : spec) (i : Z) : Prop := a + off (hd_of s) <= i < a + off (hd_of s) + extent s.
Definition apart (s t : spec) : Prop := forall i, inside 0 s i -> ~ inside 0 t i.
Inductive wf : spec -> Prop :=
| wf_leaf h k : 0 <= off h -> (match k with LInt k _ => In k [1; 2; 4; 8]%nat | LStrbuf => 1 <= size h | LEnum _ _ _ _ | LBitset _ _ => good_size (size h) = true | _ => True end) ->
    wf (Leaf h k)
| wf_sub h l : 0 <= off h -> l <> [] -> wf_all l -> wf (Sub h l)
| wf_arr h n item : 0 <= off h -> 0 < n -> wf item -> off (hd_of item) = 0 -> extent item <= size (hd_of item) / n -> wf (Arr h n item)
with wf_all : list spec -> Prop :=
| wf_nil : wf_all []
| wf_cons s l : wf s -> wf_all l -> sname s <> [] -> Forall (fun t => sname t <> sname s /\ apart s t) l -> wf_all (s :: l).

(** ** Values *)
(** Which values an option takes that is no structure, and how the value reads afterwards. *)
Definition int_range (k : nat) (signed : bool) (z : Z) : Prop :=
  if signed then - 2 ^ (8 * Z.of_nat k - 1) <= z < 2 ^ (8 * Z.of_nat k - 1) else 0 <= z < 2 ^ (8 * Z.of_nat k).

(** Without a structure set to null: at no depth does a member that stands for a structure have the value null. *)
Fixpoint spares (v : val) (s : spec) : Prop :=
  match s, v with
  | Sub _ _, VNull => False
  | Sub _ l, VObj ms => (fix go (ms : list (str * val)) : Prop :=
      match ms with [] => True | (k, v) :: r => (match find l k with Some t => spares v t | None => True end) /\ go r end) ms
  | _, _ => True
  end.
(** ** Protection.  An option that conf must not change, and the bytes of such options, at any depth below structures. *)
Definition protected (c : cfg) (s : spec) : Prop := readonly (hd_of s) = true \/ initonly (hd_of s) = true \/ (safe c = true /\ locksafe (hd_of s) = true).
Inductive guarded (c : cfg) : Z -> list spec -> Z -> Prop :=
| g_here a l s i : In s l -> protected c s -> inside a s i -> guarded c a l i
| g_within a l h l' i : In (Sub h l') l -> guarded c (a + off h) l' i -> guarded c a l i.
(** A history of calls of conf, failing or not. *)
Inductive confs (junk : Z) (c : cfg) (specs : list spec) : mem -> mem -> Prop :=
| confs_none m : confs junk c specs m m
| confs_one m m1 m2 v : conf junk c m specs v = Ok m1 \/ conf junk c m specs v = Err m1 ->
    (forall ms, v = VObj ms -> Forall (fun kv => forall t, find specs (fst kv) = Some t -> spares (snd kv) t) ms) ->
    confs junk c specs m1 m2 -> confs junk c specs m m2.
(** The values an option takes that is no structure and no set, and how they read. *)
Definition text_bytes (s : str) : Prop := Forall (fun c => 1 <= c < 256) s.
Inductive takes : leaf -> Z -> val -> val -> Prop :=
| t_bool z b : takes LBool z (VBool b) (VBool b)
| t_int k sg z x n : integer_part x = Some n -> int_range k sg n -> n < 2 ^ 63 -> takes (LInt k sg) z (VNum x) (VNum (of_int n))
| t_num z x : x <> S754_nan -> takes LNum z (VNum x) (VNum x)
| t_strbuf z s : Z.of_nat (length s) < z -> text_bytes s -> takes LStrbuf z (VStr s) (VStr s)
| t_strbuf_null z : takes LStrbuf z VNull (VStr [])
| t_null c z : takes (LVal c) z VNull VNull
| t_val c z v : v <> VNull ->
    match c with
    | AnyValue => True
    | StringV => exists s, v = VStr s
    | ArrayV => exists l, v = VArr l
    | ObjectV => (exists l, v = VArr l) \/ (exists l, v = VObj l) \/ (exists i, v = VFun i) \/ (exists i, v = VRe i)
    | FuncV => exists i, v = VFun i
    | RegexpV => exists i, v = VRe i
    end -> takes (LVal c) z v v
| t_enum names nc ex un z s n name : MiscModel.get_index ex nc names s = Some (Z.of_nat n) -> nth_error names n = Some name -> Z.of_nat n < 128 ->
    takes (LEnum names nc ex un) z (VStr s) (VStr name).
(** ** Sets.  A piece "!x" takes the x-th bit out, a piece "x" puts it in; the others stay. *)
Definition piece (s : str) : bool * str := match s with c :: r => if c =? 33 then (false, r) else (true, s) | [] => (true, []) end.
Definition stands_for (nc : bool) (names : list str) (s : str) (i : Z) : Prop := MiscModel.get_index false nc names (snd (piece s)) = Some i.
Inductive turns (nc : bool) (names : list str) (i : Z) : list str -> bool -> bool -> Prop :=
| turns_none b : turns nc names i [] b b
| turns_this s l b b' : stands_for nc names s i -> turns nc names i l (fst (piece s)) b' -> turns nc names i (s :: l) b b'
| turns_other s l b b' : ~ stands_for nc names s i -> turns nc names i l b b' -> turns nc names i (s :: l) b b'.
(** The names whose bit is in the set, in the order of the table. *)
Fixpoint chosen (names : list str) (on : Z -> bool) (i : Z) : list str :=
  match names with [] => [] | s :: r => if on i then s :: chosen r on (i + 1) else chosen r on (i + 1) end.
