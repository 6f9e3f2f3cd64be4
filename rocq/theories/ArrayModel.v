(** Model of the script arrays (src/jsiArray.c, the array part of src/jsiObj.c).

    An array object in list form is its block of slots (obj->arr, arrMaxSize of them) and the count
    arrCnt.  A slot is NULL ([None]) or a pointer to a value, i.e. the index of a cell of the heap;
    the heap is the list of the contents of all cells ever allocated.  Reference counts and the
    freeing of cells are left out (RefModel.v is about them), and so are the fields in obj->tree
    (an own "length" field in particular) and the [modifying] flag.

    Every access to a slot checks the bounds: the result None of an operation stands for a memory
    error (or a failed assert).  Operations that end with an error message return [Failed]. *)
From Coq Require Import ZArith List Bool.
Import ListNotations.
Local Open Scope nat_scope.

(** A slot of the block: NULL or a pointer *)
Notation slot := (option nat).

Section Arrays.
Variable C : Type.          (* contents of values *)
Variable undef : C.
Variable M : nat.           (* interp->maxArrayList *)

Record arr := mkA { sl : list slot; cnt : nat }.
Notation heap := (list C).            (* the cells *)

(** Allocation of a copy: Jsi_ValueDup, Jsi_ValueDup2 (jsiValue.c) *)
Definition rd (h : heap) (p : nat) : C := nth p h undef.
Definition dup (h : heap) (p : nat) : heap * nat := (h ++ [rd h p], length h).
(** Jsi_ValueCopy: overwrite a cell *)
Definition wr (h : heap) (p : nat) (c : C) : heap := firstn p h ++ c :: skipn (S p) h.

Definition get (l : list slot) (i : nat) : option slot := nth_error l i.
Definition put (l : list slot) (i : nat) (v : slot) : option (list slot) :=
  if i <? length l then Some (firstn i l ++ v :: skipn (S i) l) else None.

(** The elements a script sees: positions 0 .. length-1, holes included *)
Definition elems (a : arr) : list slot := firstn (cnt a) (sl a).

(** Outcome of an operation that can report an error *)
Inductive res (A : Type) := Done (x : A) | Failed (a : arr) (h : heap).
Arguments Done {A}. Arguments Failed {A}.

(** Jsi_ObjArraySizer, jsiObj.c:449-468; None: "array size too big" *)
Definition nsiz_of (len : nat) : nat := len + 1 + (15 - (len + 1 + 15) mod 16).
Definition sizer (a : arr) (len : nat) : option arr :=
  let nsiz := nsiz_of len in
  if (M <=? len) || (M <? nsiz) then None
  else
    let s := if length (sl a) <=? len then sl a ++ repeat None (nsiz - length (sl a)) else sl a in
    Some (mkA s (if cnt a <? len then len else cnt a)).

(** Jsi_ObjSetLength, jsiObj.c:714-719 (list form); None: the assert fails *)
Definition set_length (a : arr) (len : nat) : option arr :=
  if len <=? length (sl a) then Some (mkA (sl a) len) else None.

Definition empty : arr := mkA [] 0.        (* Jsi_ObjNewType(JSI_OT_ARRAY) *)

(** Jsi_ObjArraySet, jsiObj.c:401-420.  The result: None memory error, Some None: JSI_ERROR *)
Definition array_set (a : arr) (v : slot) (n : nat) : option (option arr) :=
  match sizer a (n + 1) with
  | None => Some None
  | Some a =>
      match put (sl a) n v with
      | None => None
      | Some s =>
          let a := mkA s (cnt a) in
          if cnt a <? n + 1 then option_map Some (set_length a (n + 1)) else Some (Some a)
      end
  end.

(** jsi_ArrayPushCmd, jsiArray.c:16-40 with Jsi_ValueInsertArray, jsiValue.c:1299-1315; errors of
    the single insertions are ignored there *)
Fixpoint push_loop (a : arr) (curlen i : nat) (args : list slot) : option arr :=
  match args with
  | [] => Some a
  | v :: r =>
      if curlen + i <? M then
        match array_set a v (curlen + i) with
        | None => None
        | Some (Some a') => push_loop a' curlen (S i) r
        | Some None => push_loop a curlen (S i) r
        end
      else push_loop a curlen (S i) r
  end.
Definition push (a : arr) (args : list slot) : option (arr * nat) :=
  match push_loop a (cnt a) 0 args with
  | None => None
  | Some a' => Some (a', cnt a')
  end.

(** jsi_ArrayPopCmd, jsiArray.c:42-75: new array and the value returned (None: undefined) *)
Definition pop (a : arr) : option (arr * slot) :=
  if cnt a =? 0 then Some (a, None)
  else
    let i := cnt a - 1 in
    match get (sl a) i with
    | None => None
    | Some (Some v) =>
        match put (sl a) i None with
        | None => None
        | Some s => match set_length (mkA s (cnt a - 1)) i with Some a => Some (a, Some v) | None => None end
        end
    | Some None => match set_length a i with Some a => Some (a, None) | None => None end
    end.

(** memmove of n slots from position [from] to position [to]; None: out of bounds *)
Definition memmove (l : list slot) (to from n : nat) : option (list slot) :=
  if (from + n <=? length l) && (to + n <=? length l)
  then Some (firstn to l ++ firstn n (skipn from l) ++ skipn (to + n) l)
  else None.

(** jsi_ArrayShiftCmd, jsiArray.c:760-782.  The value is returned as a copy. *)
Definition shift (h : heap) (a : arr) : option (heap * arr * slot) :=
  if cnt a =? 0 then Some (h, a, None)
  else
    let n := cnt a - 1 in
    match get (sl a) 0, memmove (sl a) 0 1 n with
    | Some v, Some s =>
        match put s n None with
        | None => None
        | Some s =>
            match v with
            | None => Some (h, mkA s (cnt a), None)        (* if (!v) return JSI_OK *)
            | Some p =>
                let '(h', q) := dup h p in
                match set_length (mkA s (cnt a)) n with Some a => Some (h', a, Some q) | None => None end
            end
        end
    | _, _ => None
    end.

(** Writing consecutive slots *)
Fixpoint put_all (l : list slot) (i : nat) (vs : list slot) : option (list slot) :=
  match vs with
  | [] => Some l
  | v :: r => match put l i v with None => None | Some l => put_all l (S i) r end
  end.

(** jsi_ArrayUnshiftCmd, jsiArray.c:784-814 *)
Definition unshift (a : arr) (args : list slot) : option (res (arr * nat)) :=
  let argc := length args in
  let curlen := cnt a in
  if argc =? 0 then Some (Done (a, 0))
  else match sizer a (curlen + argc) with
  | None => Some (Failed a [])
  | Some a =>
      match memmove (sl a) argc 0 curlen with
      | None => None
      | Some s =>
          match put_all s 0 args with
          | None => None
          | Some s =>
              match set_length (mkA s (cnt a + argc)) (curlen + argc) with
              | None => None
              | Some a => Some (Done (a, cnt a))
              end
          end
      end
  end.

(** jsi_ArrayReverseCmd, jsiArray.c:474-497 *)
Fixpoint rev_loop (m i n : nat) (l : list slot) : option (list slot) :=
  match m with
  | O => Some l
  | S m =>
      match get l i, get l n with
      | Some x, Some y =>
          match put l i y with
          | None => None
          | Some l => match put l n x with None => None | Some l => rev_loop m (S i) (n - 1) l end
          end
      | _, _ => None
      end
  end.
Definition reverse (a : arr) : option arr :=
  match rev_loop (Nat.div2 (cnt a)) 0 (cnt a - 1) (sl a) with
  | None => None
  | Some s => Some (mkA s (cnt a))
  end.

(** The range arguments of slice and fill, jsiArray.c:829-856 and 887-911: start and end are the
    numbers given (already truncated to int); None: nothing to do *)
Definition range_start (n start : Z) : option Z :=
  (if n <? start then None
   else let s := if start <? 0 then n + start else start in
        if s <? 0 then None else Some s)%Z.
Definition range_end (n : Z) (e : option Z) : option Z :=
  (match e with
   | None => Some (n - 1)
   | Some e => let e := if n <=? e then n - 1 else e in
               let e := if e <? 0 then n + e else e in
               if e <? 0 then None else Some e
   end)%Z.

(** jsi_ArrayFillCmd, jsiArray.c:816-871; the value is a cell.  Existing elements are overwritten
    in place (Jsi_ValueCopy). *)
Fixpoint fill_loop (k i : nat) (val : nat) (h : heap) (l : list slot) : option (heap * list slot) :=
  match k with
  | O => Some (h, l)
  | S k =>
      match get l i with
      | None => None
      | Some (Some p) => fill_loop k (S i) val (wr h p (rd h val)) l
      | Some None =>
          let '(h, q) := dup h val in
          match put l i (Some q) with None => None | Some l => fill_loop k (S i) val h l end
      end
  end.
Definition fill (h : heap) (a : arr) (val : nat) (start : Z) (e : option Z) : option (heap * arr) :=
  let n := Z.of_nat (cnt a) in
  match range_start n start with
  | None => Some (h, a)
  | Some s =>
      if cnt a =? 0 then Some (h, a)
      else match range_end n e with
      | None => Some (h, a)
      | Some e =>
          match fill_loop (Z.to_nat (e - s + 1)) (Z.to_nat s) val h (sl a) with
          | None => None
          | Some (h, l) => Some (h, mkA l (cnt a))
          end
      end
  end.

(** Copying slots: the loops [if (!arr[i]) continue; narr[m] = NULL; Jsi_ValueDup2(narr+m, arr[i])] *)
Fixpoint dup_into (h : heap) (dst : list slot) (m : nat) (src : list slot) (i k : nat) : option (heap * list slot) :=
  match k with
  | O => Some (h, dst)
  | S k =>
      match get src i with
      | None => None
      | Some None => dup_into h dst (S m) src (S i) k
      | Some (Some p) =>
          let '(h, q) := dup h p in
          match put dst m (Some q) with None => None | Some dst => dup_into h dst (S m) src (S i) k end
      end
  end.

(** jsi_ArraySliceCmd, jsiArray.c:874-931 (start is given) *)
Definition slice (h : heap) (a : arr) (start : Z) (e : option Z) : option (res (heap * arr)) :=
  let n := Z.of_nat (cnt a) in
  match range_start n start with
  | None => Some (Done (h, empty))
  | Some s =>
      if cnt a =? 0 then Some (Done (h, empty))
      else match range_end n e with
      | None => Some (Done (h, empty))
      | Some e =>
          if ((e - s + 1 <=? 0) || (n <=? s))%Z then Some (Done (h, empty))
          else
            let k := Z.to_nat (e - s + 1) in
            match sizer empty k with
            | None => Some (Failed empty h)
            | Some b =>
                match dup_into h (sl b) 0 (sl a) (Z.to_nat s) k with
                | None => None
                | Some (h, l) => match set_length (mkA l (cnt b)) k with Some b => Some (Done (h, b)) | None => None end
                end
            end
      end
  end.

(** An argument of concat: a value, or an array *)
Inductive carg := CVal (p : nat) | CArr (a : arr).
(** jsi_ArrayConcatCmd, jsiArray.c:285-343, the loop 311-338.  m and curlen advance together. *)
Fixpoint concat_loop (h : heap) (b : arr) (m curlen : nat) (args : list carg) : option (res (heap * arr * nat)) :=
  match args with
  | [] => Some (Done (h, b, curlen))
  | CArr x :: r =>
      match sizer b (curlen + cnt x) with
      | None => Some (Failed b h)
      | Some b =>
          match dup_into h (sl b) m (sl x) 0 (cnt x) with
          | None => None
          | Some (h, l) => concat_loop h (mkA l (cnt b)) (m + cnt x) (curlen + cnt x) r
          end
      end
  | CVal p :: r =>
      match sizer b (curlen + 1) with
      | None => Some (Failed b h)
      | Some b =>
          let '(h, q) := dup h p in
          match put (sl b) m (Some q) with
          | None => None
          | Some l => concat_loop h (mkA l (cnt b)) (m + 1) (curlen + 1) r
          end
      end
  end.
Definition concat (h : heap) (a : arr) (args : list carg) : option (res (heap * arr)) :=
  let nsiz := if length (sl a) =? 0 then 100 else length (sl a) in
  match sizer empty (nsiz + 1) with
  | None => Some (Failed empty h)
  | Some b =>
      match dup_into h (sl b) 0 (sl a) 0 (cnt a) with
      | None => None
      | Some (h, l) =>
          match concat_loop h (mkA l (cnt b)) (cnt a) (cnt a) args with
          | None => None
          | Some (Failed b h) => Some (Failed b h)
          | Some (Done (h, b, n)) =>
              match set_length b n with Some b => Some (Done (h, b)) | None => None end
          end
      end
  end.

(** jsi_ArraySpliceCmd, jsiArray.c:1129-1224.  [items] are the arguments after howmany. *)
(* 1184-1189: move elements to the return object *)
Fixpoint take_loop (k i m : nat) (l r : list slot) : option (list slot * list slot) :=
  match k with
  | O => Some (l, r)
  | S k =>
      match get l i with
      | None => None
      | Some None => take_loop k (S i) (S m) l r
      | Some (Some p) =>
          match put r m (Some p), put l i None with
          | Some r, Some l => take_loop k (S i) (S m) l r
          | _, _ => None
          end
      end
  end.
(* 1193-1197: shift remaining down by d *)
Fixpoint down_loop (k i d : nat) (l : list slot) : option (list slot) :=
  match k with
  | O => Some l
  | S k =>
      match get l i with
      | None => None
      | Some v =>
          match put l (i - d) v with
          | None => None
          | Some l => match put l i None with None => None | Some l => down_loop k (S i) d l end
          end
      end
  end.
(* 1206-1209: shift up by d, from position [start + k - 1] down to [start] *)
Fixpoint up_loop (k start d : nat) (l : list slot) : option (list slot) :=
  match k with
  | O => Some l
  | S k =>
      match get l (start + k) with
      | None => None
      | Some v =>
          match put l (start + k + d) v with
          | None => None
          | Some l => match put l (start + k) None with None => None | Some l => up_loop k start d l end
          end
      end
  end.
(* 1210-1215: the new elements, as copies *)
Fixpoint ins_loop (h : heap) (l : list slot) (m : nat) (items : list nat) : option (heap * list slot) :=
  match items with
  | [] => Some (h, l)
  | p :: r =>
      let '(h, q) := dup h p in
      match put l m (Some q) with None => None | Some l => ins_loop h l (S m) r end
  end.
Definition splice (h : heap) (a : arr) (start : Z) (howmany : option Z) (items : list nat)
  : option (res (heap * arr * arr)) :=
  let n := Z.of_nat (cnt a) in
  if (n <? start)%Z then Some (Done (h, a, empty))
  else
    let s := (let s := if start <? 0 then n + start else start in if s <? 0 then 0 else s)%Z in
    let hm := (match howmany with
               | None => n - s
               | Some k => let k := if n - s <=? k then n - s else k in
                           if k <? 0 then n - s else k
               end)%Z in
    if (hm <? 0)%Z then Some (Done (h, a, empty))
    else
      let s := Z.to_nat s in let k := Z.to_nat hm in
      match sizer empty k with
      | None => Some (Failed a h)
      | Some b =>
          match take_loop k s 0 (sl a) (sl b) with
          | None => None
          | Some (l, r) =>
              match set_length (mkA r (cnt b)) k with
              | None => None
              | Some b =>
                  match (if k =? 0 then Some l else down_loop (cnt a - (s + k)) (s + k) k l) with
                  | None => None
                  | Some l =>
                      let curlen := cnt a - k in
                      let newlen := curlen + length items in
                      match sizer (mkA l (cnt a)) (newlen + 3) with
                      | None => Some (Failed (mkA l (cnt a)) h)
                      | Some a' =>
                          let mid :=
                            match items with
                            | [] => Some (h, sl a')
                            | _ => match up_loop (curlen - s) s (length items) (sl a') with
                                   | None => None
                                   | Some l => ins_loop h l s items
                                   end
                            end in
                          match mid with
                          | None => None
                          | Some (h, l) =>
                              match set_length (mkA l (cnt a')) newlen with
                              | None => None
                              | Some a' => Some (Done (h, a', b))
                              end
                          end
                      end
                  end
              end
          end
      end.

(** a[n] = v: jsi_ObjArraySetDup, jsiEval.c:1046-1067 *)
Definition assign (h : heap) (a : arr) (n : nat) (c : C) : option (res (heap * arr)) :=
  match sizer a n with
  | None => Some (Failed a h)
  | Some a =>
      match get (sl a) n with
      | None => None
      | Some (Some p) => Some (Done (wr h p c, a))
      | Some None =>
          match put (sl a) n (Some (length h)) with
          | None => None
          | Some l =>
              let a := mkA l (cnt a) in
              let h := h ++ [c] in
              if cnt a <? n + 1
              then match set_length a (n + 1) with Some a => Some (Done (h, a)) | None => None end
              else Some (Done (h, a))
          end
      end
  end.

(** a[n]: Jsi_ValueArrayIndex, jsiValue.c:359-365 *)
Definition index (a : arr) (n : Z) : option slot :=
  if ((n <? 0) || (Z.of_nat (cnt a) <=? n))%Z then Some None else get (sl a) (Z.to_nat n).

(** jsi_ArrayIndexSubCmd, jsiArray.c:690-737: op 1 indexOf, 3 includes, 2 lastIndexOf.  [eq] is the
    comparison with the argument.  None: memory error. *)
Fixpoint find_up (eq : C -> bool) (h : heap) (l : list slot) (i k : nat) : option Z :=
  match k with
  | O => Some (-1)%Z
  | S k =>
      match get l i with
      | None => None
      | Some (Some p) => if eq (rd h p) then Some (Z.of_nat i) else find_up eq h l (S i) k
      | Some None => find_up eq h l (S i) k
      end
  end.
Fixpoint find_down (eq : C -> bool) (h : heap) (l : list slot) (k : nat) : option Z :=
  match k with
  | O => Some (-1)%Z
  | S k =>
      match get l k with
      | None => None
      | Some (Some p) => if eq (rd h p) then Some (Z.of_nat k) else find_down eq h l k
      | Some None => find_down eq h l k
      end
  end.
Definition index_sub (last : bool) (eq : C -> bool) (h : heap) (a : arr) (start : option Z) : option Z :=
  let n := cnt a in
  if n =? 0 then Some (-1)%Z
  else match (match start with
              | None => Some 0%Z
              | Some s => range_start (Z.of_nat n) s
              end) with
  | None => Some (-1)%Z
  | Some s => if last then find_down eq h (sl a) n
              else find_up eq h (sl a) (Z.to_nat s) (n - Z.to_nat s)
  end.

(** map, filter, find/some/every/findIndex and reduce with a callback that neither fails nor changes
    the array: [f c i] is what it returns for the element c at position i. *)
(** jsi_ArrayMapCmd, jsiArray.c:345-400: a hole stays a hole *)
Fixpoint map_loop (f : C -> nat -> C) (h : heap) (src dst : list slot) (i k : nat) : option (heap * list slot) :=
  match k with
  | O => Some (h, dst)
  | S k =>
      match get src i with
      | None => None
      | Some None => map_loop f h src dst (S i) k
      | Some (Some p) =>
          match put dst i (Some (length h)) with
          | None => None
          | Some dst => map_loop f (h ++ [f (rd h p) i]) src dst (S i) k
          end
      end
  end.
Definition map_cmd (f : C -> nat -> C) (h : heap) (a : arr) : option (res (heap * arr)) :=
  match sizer empty (if cnt a =? 0 then 1 else cnt a) with
  | None => Some (Failed empty h)
  | Some b =>
      match map_loop f h (sl a) (sl b) 0 (cnt a) with
      | None => None
      | Some (h, l) => match set_length (mkA l (cnt b)) (cnt a) with Some b => Some (Done (h, b)) | None => None end
      end
  end.
(** jsi_ArrayFilterCmd, jsiArray.c:402-472: the elements kept are shared, not copied *)
Fixpoint filter_loop (f : C -> nat -> bool) (h : heap) (src dst : list slot) (i n k : nat) : option (list slot * nat) :=
  match k with
  | O => Some (dst, n)
  | S k =>
      match get src i with
      | None => None
      | Some None => filter_loop f h src dst (S i) n k
      | Some (Some p) =>
          if f (rd h p) i then
            match put dst n (Some p) with None => None | Some dst => filter_loop f h src dst (S i) (S n) k end
          else filter_loop f h src dst (S i) n k
      end
  end.
Definition filter_cmd (f : C -> nat -> bool) (h : heap) (a : arr) : option (res arr) :=
  match sizer empty (if cnt a =? 0 then 1 else cnt a) with
  | None => Some (Failed empty h)
  | Some b =>
      match filter_loop f h (sl a) (sl b) 0 0 (cnt a) with
      | None => None
      | Some (l, n) => match set_length (mkA l (cnt b)) n with Some b => Some (Done b) | None => None end
      end
  end.
(** jsi_ArrayFindSubCmd, jsiArray.c:545-606, the loop 569-592: the final fval and i *)
Fixpoint find_loop (every : bool) (f : C -> nat -> bool) (h : heap) (l : list slot) (i k : nat) (fval : bool) : option (bool * nat) :=
  match k with
  | O => Some (fval, i)
  | S k =>
      match get l i with
      | None => None
      | Some None => find_loop every f h l (S i) k fval
      | Some (Some p) =>
          let fval := f (rd h p) i in
          if (if every then negb fval else fval) then Some (fval, i)
          else find_loop every f h l (S i) k fval
      end
  end.
Definition find_cmd f h a : option slot :=
  match find_loop false f h (sl a) 0 (cnt a) false with
  | None => None
  | Some (true, i) => get (sl a) i
  | Some (false, _) => Some None
  end.
Definition some_cmd f h a : option bool := option_map fst (find_loop false f h (sl a) 0 (cnt a) false).
Definition every_cmd f h a : option bool := option_map fst (find_loop true f h (sl a) 0 (cnt a) false).
Definition find_index_cmd f h a : option Z :=
  option_map (fun r : bool * nat => if fst r then Z.of_nat (snd r) else (-1)%Z) (find_loop false f h (sl a) 0 (cnt a) false).
(** jsi_ArrayReduceSubCmd, jsiArray.c:608-658.  n is the number of rounds before; [None] as the
    accumulator is the NULL of ini, which the callback gets as an undefined argument. *)
Fixpoint reduce_loop (rev : bool) (f : C -> C -> nat -> C) (h : heap) (l : list slot) (i k n : nat) (ini : option C) : option (option C) :=
  match k with
  | O => Some ini
  | S k =>
      let i' := if rev then i - 1 else S i in
      match get l i with
      | None => None
      | Some None => reduce_loop rev f h l i' k (S n) ini
      | Some (Some p) =>
          match ini with
          | None => if n =? 0 then reduce_loop rev f h l i' k (S n) (Some (rd h p))
                    else reduce_loop rev f h l i' k (S n) (Some (f undef (rd h p) i))
          | Some c => reduce_loop rev f h l i' k (S n) (Some (f c (rd h p) i))
          end
      end
  end.
Definition reduce_cmd (rev : bool) f h a ini : option (option C) :=
  reduce_loop rev f h (sl a) (if rev then cnt a - 1 else 0) (cnt a) 0 ini.

(** SortSubCmd, jsiArray.c:955-1004.  [cmp v1 v2] is Jsi_ValueCmp(v1, v2, flags), or minus the integer
    part of what the compare function returns. *)
Definition sort_sub (cmp : C -> C -> Z) (desc : bool) (h : heap) (x y : slot) : Z :=
  let rc := match x, y with
            | Some p, Some q => cmp (rd h p) (rd h q)
            | None, None => 0%Z
            | None, Some _ => 1%Z
            | Some _, None => (-1)%Z
            end in
  if desc then rc else (- rc)%Z.
(** The unique pass of jsi_ArraySortCmd, jsiArray.c:1090-1117: n is the index of the last element
    kept.  Result: slots and number of duplicates. *)
Fixpoint uniq_loop (sub : slot -> slot -> Z) (l : list slot) (n i k dup : nat) : option (list slot * nat) :=
  match k with
  | O => Some (l, dup)
  | S k =>
      match get l n, get l i with
      | Some x, Some y =>
          let same_pointer := match x, y with Some p, Some q => p =? q | None, None => true | _, _ => false end in
          let diff := if same_pointer then 1%Z else sub x y in
          if (diff =? 0)%Z then
            match put l i None with
            | None => None
            | Some l => uniq_loop sub l n (S i) k (S dup)
            end
          else
            let n := S n in
            match (if n =? i then Some l else put l n y) with
            | None => None
            | Some l => uniq_loop sub l n (S i) k dup
            end
      | _, _ => None
      end
  end.
(** jsi_ArraySortCmd, jsiArray.c:1037-1127.  [qsort sub l] stands for the C library's qsort_r with the
    comparison [sub] on the first arrCnt slots. *)
Definition sort_cmd (qsort : (slot -> slot -> Z) -> list slot -> list slot) (cmp : C -> C -> Z) (desc unique : bool)
    (h : heap) (a : arr) : option arr :=
  if cnt a <=? 1 then Some a
  else
    let sub := sort_sub cmp desc h in
    let l := qsort sub (firstn (cnt a) (sl a)) ++ skipn (cnt a) (sl a) in
    if unique then
      match uniq_loop sub l 0 1 (cnt a - 1) 0 with
      | None => None
      | Some (l, d) => Some (mkA l (cnt a - d))
      end
    else Some (mkA l (cnt a)).

(** jsi_ArrayJoinCmd, jsiArray.c:78-109 *)
Fixpoint join_loop (tostr : C -> list Z) (sep : list Z) (h : heap) (l : list slot) (i k : nat) : option (list Z) :=
  match k with
  | O => Some []
  | S k =>
      match get l i with
      | None => None
      | Some None => join_loop tostr sep h l (S i) k
      | Some (Some p) =>
          match join_loop tostr sep h l (S i) k with
          | None => None
          | Some r => Some ((if i =? 0 then [] else sep) ++ tostr (rd h p) ++ r)
          end
      end
  end.
Definition join (tostr : C -> list Z) (sep : list Z) (h : heap) (a : arr) : option (list Z) :=
  join_loop tostr sep h (sl a) 0 (cnt a).
End Arrays.
Arguments Done {C A}. Arguments Failed {C A}.
Arguments empty : clear implicits.

(** ** Histories: the arguments of a call are fresh cells (the copies that the evaluator makes for a
    call), allocated before the command runs. *)
Section Hist.
Variable C : Type.
Variable undef : C.
Variable M : nat.
Inductive call :=
| KPush (xs : list C) | KPop | KShift | KUnshift (xs : list C) | KReverse
| KFill (c : C) (start : Z) (e : option Z)
| KSplice (start : Z) (howmany : option Z) (xs : list C)
| KSet (n : nat) (c : C).
Definition do_call (h : list C) (a : arr) (k : call) : option (list C * arr) :=
  let keep (h : list C) (r : option (res C (list C * arr))) :=
    match r with None => None | Some (Done (h, a)) => Some (h, a) | Some (Failed a h) => Some (h, a) end in
  match k with
  | KPush xs => option_map (fun r => (h ++ xs, fst r)) (push M a (map Some (seq (length h) (length xs))))
  | KPop => option_map (fun r => (h, fst r)) (pop a)
  | KShift => option_map fst (shift C undef h a)
  | KUnshift xs =>
      match unshift C M a (map Some (seq (length h) (length xs))) with
      | None => None
      | Some (Done (a, _)) => Some (h ++ xs, a)
      | Some (Failed a _) => Some (h ++ xs, a)
      end
  | KReverse => option_map (fun a => (h, a)) (reverse a)
  | KFill c s e => fill C undef (h ++ [c]) a (length h) s e
  | KSplice s n xs =>
      match splice C undef M (h ++ xs) a s n (seq (length h) (length xs)) with
      | None => None
      | Some (Done (h, a, _)) => Some (h, a)
      | Some (Failed a h) => Some (h, a)
      end
  | KSet n c => keep h (assign C M h a n c)
  end.
Fixpoint do_calls (h : list C) (a : arr) (ks : list call) : option (list C * arr) :=
  match ks with
  | [] => Some (h, a)
  | k :: r => match do_call h a k with None => None | Some (h, a) => do_calls h a r end
  end.
End Hist.
