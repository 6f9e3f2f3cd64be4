(** * Model of options (jsiOptions.c): finding, setting, resetting, reading.

    Left out: the increment flag, NO_CLEAR, ENUM_SPEC, bit fields, times, dynamic strings, functions in the parent, verify;
    floats other than Jsi_Number; the argument check of functions; noCheck; Boolean, Number and String objects (they count as
    the primitive values).  A value of an object is the list of its members in the order of the tree. *)
From Coq Require Import ZArith List Bool SpecFloat.
Import ListNotations.
Require Import Verif.StrModel Verif.NumModel Verif.OpsModel Verif.MiscModel.
Local Open Scope Z_scope.
Local Notation str := (list Z).

Inductive val :=
| VUndef | VNull | VBool (b : bool) | VNum (x : num) | VStr (s : str)
| VArr (l : list (option val)) | VObj (l : list (str * val)) | VFun (id : Z) | VRe (id : Z).

(** The record the options are stored in, byte by byte; a number and a reference to a value are in one piece. *)
Inductive cell := CByte (b : Z) | CNum (x : num) | CVal (v : option val) | CPad.
Definition mem := Z -> cell.
Definition put (m : mem) (a : Z) (c : cell) : mem := fun i => if i =? a then c else m i.
Fixpoint put_list (m : mem) (a : Z) (l : list cell) : mem := match l with [] => m | c :: r => put_list (put m a c) (a + 1) r end.
Definition byte_of (c : cell) : Z := match c with CByte b => b | _ => 0 end.
(** Integers, little endian: k bytes; u is the value modulo 2^(8k). *)
Fixpoint le_bytes (k : nat) (u : Z) : list Z := match k with O => [] | S k => u mod 256 :: le_bytes k (u / 256) end.
Definition store_int (m : mem) (a : Z) (k : nat) (v : Z) : mem := put_list m a (map CByte (le_bytes k v)).
Fixpoint load_u (m : mem) (a : Z) (k : nat) : Z := match k with O => 0 | S k => byte_of (m a) + 256 * load_u m (a + 1) k end.
Definition load_int (m : mem) (a : Z) (k : nat) (signed : bool) : Z :=
  let u := load_u m a k in if signed && (2 ^ (8 * Z.of_nat k - 1) <=? u) then u - 2 ^ (8 * Z.of_nat k) else u.
Definition store_cell (m : mem) (a : Z) (c : cell) : mem := put_list m a (c :: repeat CPad 7).

(** Jsi_OptionId (jsiOptions.c:12-47), as classes. *)
Inductive class := AnyValue | StringV | ArrayV | ObjectV | FuncV | RegexpV.
Inductive leaf :=
| LBool | LInt (k : nat) (signed : bool) | LNum | LStrbuf | LVal (c : class)
| LEnum (names : list str) (nocase exact unsigned : bool) | LBitset (names : list str) (nocase : bool).
(** Jsi_OptionSpec (jsi.h:1112-1136). *)
Record head := mkH { name : str; off : Z; size : Z; readonly : bool; initonly : bool; locksafe : bool; required : bool; pass2 : bool }.
Inductive spec := Leaf (h : head) (k : leaf) | Sub (h : head) (l : list spec) | Arr (h : head) (n : Z) (item : spec).
Definition hd_of (s : spec) : head := match s with Leaf h _ | Sub h _ | Arr h _ _ => h end.
Definition sname (s : spec) : str := name (hd_of s).

(** Jsi_OptionsFind (jsiOptions.c:175-229): the first perfect match, or the only name with this prefix; an ambiguous prefix
    ends the search. *)
Fixpoint find_from (match_ : option spec) (l : list spec) (n : str) : option spec :=
  match l with
  | [] => match_
  | s :: r =>
      if negb (UtfModel.at_ (sname s) 0 =? UtfModel.at_ n 0) || negb (starts keep (sname s) n) then find_from match_ r n
      else if same keep (sname s) n then Some s
      else match match_ with Some _ => None | None => find_from (Some s) r n end
  end.
Definition find (l : list spec) (n : str) : option spec := find_from None l n.

(** What a function leaves: the record, and whether it failed; or undefined behaviour. *)
Inductive res := Ok (m : mem) | Err (m : mem) | Undef.

Definition class_ok (c : class) (v : val) : bool :=
  match c, v with
  | AnyValue, _ => true
  | StringV, VStr _ | ArrayV, VArr _ | FuncV, VFun _ | RegexpV, VRe _ => true
  | ObjectV, (VArr _ | VObj _ | VFun _ | VRe _) => true
  | _, _ => false
  end.
Definition good_size (n : Z) : bool := (n =? 1) || (n =? 2) || (n =? 4) || (n =? 8).

(** The values of 1<<n and ~(1<<n) as uint64_t: the shift is one of int. *)
Definition bit (n : Z) : option Z := if n <? 31 then Some (2 ^ n) else if n =? 31 then Some (2 ^ 64 - 2 ^ 31) else None.
Definition set_bit (m n : Z) (on : bool) : option Z :=
  match bit n with Some b => Some (if on then Z.lor m b else Z.land m (Z.ldiff (2 ^ 64 - 1) b)) | None => None end.
(** jsi_ValueToBitset (jsiOptions.c:1573-1701). *)
Inductive bits := BGo (m : Z) | BErr | BUndef.
Definition bang (s : str) : bool * str := match s with c :: r => if c =? 33 then (true, r) else (false, s) | [] => (false, []) end.
(** The loop over the pieces of a string (1611-1627): an error does not end it. *)
Fixpoint bits_str (names : list str) (nocase ass : bool) (size : Z) (l : list str) (m : Z) (ok : bool) : bits :=
  match l with
  | [] => if ok then BGo m else BErr
  | s :: r =>
      let (isnot, s1) := bang s in
      match get_index false nocase names s1 with
      | None => bits_str names nocase ass size r m false
      | Some n =>
          let ok1 := ok && negb (isnot && ass) && (n <? size * 8) in
          match set_bit m n (negb isnot) with
          | Some m1 => bits_str names nocase ass size r m1 ok1
          | None => BUndef
          end
      end
  end.
(** The loop over the members of an object (1644-1664). *)
Fixpoint bits_obj (names : list str) (nocase : bool) (l : list (str * val)) (m : Z) : bits :=
  match l with
  | [] => BGo m
  | (s, v) :: r =>
      match get_index false nocase names s with
      | None => BErr
      | Some n => match v with
                  | VBool b => match set_bit m n b with Some m1 => bits_obj names nocase r m1 | None => BUndef end
                  | _ => BErr
                  end
      end
  end.
(** The loop over the elements of an array (1673-1690). *)
Fixpoint bits_arr (names : list str) (nocase : bool) (im : Z) (i : Z) (l : list (option val)) (m : Z) : bits :=
  match l with
  | [] => BGo m
  | v :: r =>
      match (match v with None => Some [] | Some (VStr s) => Some s | Some _ => None end) with
      | None => BErr
      | Some s =>
          if (i =? 0) && same keep s [61] then bits_arr names nocase im (i + 1) r m
          else
            let m0 := if i =? 0 then im else m in
            let (isnot, s1) := bang s in
            match get_index false nocase names s1 with
            | None => BErr
            | Some n => match set_bit m0 n (negb isnot) with Some m1 => bits_arr names nocase im (i + 1) r m1 | None => BUndef end
            end
      end
  end.
Definition set_bitset (m : mem) (a : Z) (size : Z) (names : list str) (nocase : bool) (v : option val) : res :=
  if negb (good_size size) then Err m
  else
    let im := load_u m a (Z.to_nat size) in
    let fin (b : bits) := match b with BGo x => Ok (store_int m a (Z.to_nat size) x) | BErr => Err m | BUndef => Undef end in
    match v with
    | None => Undef
    | Some (VStr s) =>
        let (ass, s1) := match s with c :: r => if c =? 61 then (true, r) else (false, s) | [] => (false, []) end in
        let m0 := if ass then 0 else im in
        match s1 with
        | [] => fin (BGo m0)
        | _ => match split_str s1 [44] with Done l => fin (bits_str names nocase ass size l m0 true) | _ => Undef end
        end
    | Some (VObj l) => match bits_obj names nocase l im with BGo x => Ok (put m a (CByte (x mod 256))) | BErr => Err m | BUndef => Undef end
    | Some (VArr l) => fin (bits_arr names nocase im 0 l 0)
    | Some _ => Err m
    end.

Section Set_.
(** junk: what an uninitialised bool holds (jsiOptions.c:236, 268-269). *)
Context (junk : Z).
(** jsi_SetOption_ (jsiOptions.c:232-569) for options that are no structures; None is a null pointer. *)
Definition set_leaf (m : mem) (a : Z) (sz : Z) (k : leaf) (v : option val) : res :=
  match k, v with
  | LBool, None => Ok (put m a (CByte junk))
  | LBool, Some (VBool b) => Ok (put m a (CByte (if b then 1 else 0)))
  | LBool, _ => Err m
  | LInt k _, None => Ok (store_int m a k 0)
  | LInt k sg, Some (VNum x) =>
      let n := to_wide x in
      let bits := 8 * Z.of_nat k in
      (* (Jsi_Wide)(typ)n == n *)
      if wrap 64 (if sg then wrap bits n else n mod 2 ^ bits) =? n then Ok (store_int m a k n) else Err m
  | LInt _ _, _ => Err m
  | LNum, None => Ok (store_cell m a (CNum (S754_zero false)))
  | LNum, Some (VNum x) => let m1 := store_cell m a (CNum x) in if is_nan x then Err m1 else Ok m1
  | LNum, _ => Err m
  | LStrbuf, None | LStrbuf, Some VNull => Ok (put m a (CByte 0))
  | LStrbuf, Some (VStr s) =>
      if sz - 1 <? Z.of_nat (length s) then Err m else Ok (put_list m a (map CByte (s ++ [0])))
  | LStrbuf, _ => Err m
  | LVal _, None | LVal _, Some VNull => Ok (store_cell m a (CVal None))
  | LVal c, Some x => if class_ok c x then Ok (store_cell m a (CVal (Some x))) else Err m
  | LEnum names nocase exact _, Some (VStr s) =>
      (* jsi_ValueToEnum (1437-1491) *)
      match get_index exact nocase names s with
      | Some n => if good_size sz then Ok (store_int m a (Z.to_nat sz) n) else Err m
      | None => Err m
      end
  | LEnum _ _ _ _, _ => Err m
  | LBitset names nocase, _ => set_bitset m a sz names nocase v
  end.
(** Setting an option from a null pointer; a structure: Jsi_OptionsProcess with args == NULL (948-957). *)
Fixpoint reset (m : mem) (a : Z) (s : spec) : res :=
  match s with
  | Leaf h k => set_leaf m (a + off h) (size h) k None
  | Sub h l =>
      match l with
      | [] => Err m
      | _ => (fix go (m : mem) (l : list spec) : res :=
                match l with [] => Ok m | s :: r => match reset m (a + off h) s with Ok m1 => go m1 r | x => x end end) m l
      end
  | Arr _ _ _ => Undef
  end.
(** Jsi_OptionsFree (1353-1430). *)
Fixpoint free (m : mem) (a : Z) (s : spec) : mem :=
  match s with
  | Leaf h k =>
      match k with
      | LBool => put m (a + off h) (CByte 0)
      | LInt k _ => store_int m (a + off h) k 0
      | LNum => store_cell m (a + off h) (CNum (S754_zero false))
      | LStrbuf => put m (a + off h) (CByte 0)
      | LVal _ => store_cell m (a + off h) (CVal None)
      | LEnum _ _ _ _ | LBitset _ _ => m
      end
  | Sub h l => (fix go (m : mem) (l : list spec) : mem := match l with [] => m | s :: r => go (free m (a + off h) s) r end) m l
  | Arr _ _ _ => m
  end.
Definition free_all (m : mem) (a : Z) (l : list spec) : mem := fold_left (fun m s => free m a s) l m.

(** interp->isSafe, subOpts.compat; the flags JSI_OPTS_IS_UPDATE, JSI_OPT_PASS2, JSI_OPTS_IGNORE_EXTRA. *)
Record cfg := mkC { safe : bool; compat : bool }.
Record flags := mkFl { update : bool; second : bool; ignore : bool }.
Context (c : cfg).
(** Jsi_OptionsProcess (931-1029): the loop over the members.  set: jsi_SetOption; seen: the options specified. *)
Definition refused (f : flags) (h : head) : bool := readonly h || (update f && initonly h) || (safe c && update f && locksafe h).
Definition missing (f : flags) (specs : list spec) (seen : list str) : bool :=
  negb (update f) && negb (second f) &&
  existsb (fun s => required (hd_of s) && negb (existsb (fun n => same keep n (sname s)) seen)) specs.
Definition members (set : val -> flags -> mem -> Z -> spec -> res) (f : flags) (a : Z) (specs : list spec) :=
  fix go (m : mem) (l : list (str * val)) (seen : list str) : res :=
    match l with
    | [] => if missing f specs seen then Err m else Ok m
    | (k, v) :: r =>
        match find specs k with
        | None => if ignore f || compat c then go m r seen else Err m
        | Some s =>
            if negb (eqb (second f) (pass2 (hd_of s))) then go m r seen
            else if refused f (hd_of s) then Err m
            else match set v f m a s with Ok m1 => go m1 r (sname s :: seen) | x => x end
        end
    end.
Definition process_with set (f : flags) (m : mem) (a : Z) (specs : list spec) (l : list (str * val)) : res :=
  match specs with
  | [] => Err m
  | _ => match members set f a specs m l [] with
         | Err m1 => Err (if update f then m1 else free_all m1 a specs)
         | x => x
         end
  end.
(** ValueToCArray (1209-1233): the elements are set by Jsi_OptionsSet with flags 0. *)
Definition elements (set : val -> flags -> mem -> Z -> spec -> res) (item : spec) (step : Z) :=
  fix go (m : mem) (a : Z) (l : list (option val)) : res :=
    match l with
    | [] => Ok m
    | v :: r => match (match v with Some v => set v (mkFl false false false) m a item | None => reset m a item end) with
                | Ok m1 => go m1 (a + step) r
                | x => x
                end
    end.
Fixpoint set_option (v : val) (f : flags) (m : mem) (a : Z) (s : spec) {struct v} : res :=
  match s with
  | Leaf h k => set_leaf m (a + off h) (size h) k (Some v)
  | Sub h l =>
      match v with
      | VNull => reset m a s
      | VObj ms => process_with set_option f m (a + off h) l ms
      | _ => Err m
      end
  | Arr h n item =>
      if (n <=? 0) || (size (hd_of item) <=? 0) then Err m
      else match v with
           | VArr l => if Z.of_nat (length l) =? n then elements set_option item (size (hd_of item) / n) m (a + off h) l else Err m
           | _ => Err m
           end
  end.
Definition process (f : flags) := process_with set_option f.
(** Jsi_OptionsConf (1032-1057) with a value that is no string and not null. *)
Definition conf (m : mem) (specs : list spec) (v : val) : res :=
  match v with
  | VObj l => process (mkFl true false false) m 0 specs l
  | VArr _ => match specs with [] => Err m | _ => Ok m end
  | _ => Err m
  end.
End Set_.

(** jsi_GetOption (648-800) and the functions for structures; the members of an object in the order of the table. *)
Fixpoint cstring (m : mem) (a : Z) (n : nat) : out str :=
  match n with
  | O => Bad
  | S n => let b := byte_of (m a) in if b =? 0 then Done [] else match cstring m (a + 1) n with Done s => Done (b :: s) | x => x end
  end.
(** jsi_EnumToValue (1534-1547): looks forward til n. *)
Fixpoint enum_name (l : list str) (n : Z) : out str :=
  match l with [] => Fail | s :: r => if n <=? 0 then Done s else enum_name r (n - 1) end.
(** jsi_BitsetToValue (1725-1735): n is the int at the place of the field. *)
Fixpoint bitset_names (l : list str) (n : Z) (i : Z) : out (list (option val)) :=
  match l with
  | [] => Done []
  | s :: r => if i <? 32 then match bitset_names r n (i + 1) with
                              | Done x => Done (if Z.testbit n i then Some (VStr s) :: x else x)
                              | x => x
                              end
              else Bad
  end.
Definition get_leaf (m : mem) (a : Z) (sz : Z) (k : leaf) : out val :=
  match k with
  | LBool => Done (VBool (negb (byte_of (m a) =? 0)))
  | LInt k sg => Done (VNum (of_int (load_int m a k sg)))
  | LNum => match m a with CNum x => Done (VNum x) | _ => Bad end
  | LStrbuf => match cstring m a (Z.to_nat sz) with Done s => Done (VStr s) | Fail => Fail | Bad => Bad end
  | LVal _ => match m a with CVal (Some v) => Done v | CVal None => Done VNull | _ => Bad end
  | LEnum names _ _ uns =>
      if good_size sz then match enum_name names (load_int m a (Z.to_nat sz) (negb uns || (sz =? 8))) with Done s => Done (VStr s) | Fail => Fail | Bad => Bad end
      else Fail
  | LBitset names _ => match bitset_names names (load_int m a 4 true) 0 with Done l => Done (VArr l) | Fail => Fail | Bad => Bad end
  end.
Fixpoint get_option (m : mem) (a : Z) (s : spec) : out val :=
  match s with
  | Leaf h k => get_leaf m (a + off h) (size h) k
  | Sub h l =>
      match (fix go (l : list spec) : out (list (str * val)) :=
         match l with
         | [] => Done []
         | s :: r => match get_option m (a + off h) s with
                     | Done v => match go r with Done x => Done ((sname s, v) :: x) | x => x end
                     | Fail => Fail | Bad => Bad
                     end
         end) l with
      | Done [] => Fail
      | Done x => Done (VObj x)
      | Fail => Fail | Bad => Bad
      end
  | Arr h n item =>
      if (n <=? 0) || (size (hd_of item) <=? 0) then Fail
      else match find [item] (name h) with
           | None => Fail
           | Some _ =>
               match (fix go (i : nat) (a : Z) : out (list (option val)) :=
                  match i with
                  | O => Done []
                  | S i => match get_option m a item with
                           | Done v => match go i (a + size (hd_of item) / n) with Done x => Done (Some v :: x) | x => x end
                           | Fail => Fail | Bad => Bad
                           end
                  end) (Z.to_nat n) (a + off h) with
               | Done x => Done (VArr x)
               | Fail => Fail | Bad => Bad
               end
           end
  end.
