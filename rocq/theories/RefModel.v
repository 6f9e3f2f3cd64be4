(** Lifetimes of values and objects: the reference counts of jsiValue.c and jsiObj.c.

    An address is a position of the heap; a freed cell stays there as a hole, so that any later
    access to it is seen (simplification: addresses are not used again, where malloc may reuse them;
    a program that never touches a freed cell cannot see the difference).  The order in which the
    properties of a freed object are let go is that of the list of properties (simplification:
    destroy_node walks the tree).  Not modelled: functions, user objects, getters and setters,
    iterators, the bytes of strings. *)
From Coq Require Import ZArith List Bool Lia.
Import ListNotations.
Local Open Scope Z_scope.

(** Jsi_Value.vt and .d, jsiInt.h:562-590: an object, a variable (reference to another value), or
    anything that refers to nothing (number, bool, string, null, undefined: [n] stands for it) *)
Inductive payload := PPlain (n : Z) | PObject (o : nat) | PVariable (v : nat).
(** Jsi_Obj, jsiInt.h:495-530: the properties (tree), the elements (arr), the prototype
    (__proto__) and whether the object counts as a holder of it (clearProto). *)
Inductive body :=
  | BValue (p : payload)
  | BObject (props : list (Z * nat)) (elems : list (option nat)) (proto : option nat) (own : bool).
(** refCnt / refcnt: a 32-bit signed number *)
Record cell := mkC { cnt : Z; bd : body }.
Definition heap := list (option cell).

(** The outcome of a call; [Fault]: a freed cell was accessed, or freed again, or a count overflowed.
    [Deep]: the model's recursion bound was too small (it never is: see the theorems). *)
Inductive res (A : Type) := Ok (x : A) | Fault | Deep.
Arguments Ok {A}. Arguments Fault {A}. Arguments Deep {A}.
Definition bind {A B} (r : res A) (f : A -> res B) : res B :=
  match r with Ok x => f x | Fault => Fault | Deep => Deep end.
Notation "x <- r ;; e" := (bind r (fun x => e)) (at level 61, r at next level, right associativity).

Definition get (h : heap) (a : nat) : option cell := match nth_error h a with Some c => c | None => None end.
Fixpoint put (h : heap) (a : nat) (c : option cell) : heap :=
  match h, a with
  | [], _ => []
  | _ :: r, O => c :: r
  | x :: r, S a => x :: put r a c
  end.
Definition set_cnt (a : nat) (n : Z) (h : heap) : heap :=
  match get h a with Some c => put h a (Some (mkC n (bd c))) | None => h end.
Definition set_body (a : nat) (b : body) (h : heap) : heap :=
  match get h a with Some c => put h a (Some (mkC (cnt c) b)) | None => h end.
Definition live (h : heap) (a : nat) : bool := match get h a with Some _ => true | None => false end.
(** the fields are written: the cell must not have been freed *)
Definition write (a : nat) (b : body) (h : heap) : res heap :=
  if live h a then Ok (set_body a b h) else Fault.

(** What a cell refers to, in the order in which Jsi_ObjFree (tree, arr, __proto__) and ValueFree
    let go of it *)
Definition opt_list (x : option nat) : list nat := match x with Some a => [a] | None => [] end.
Definition refs (b : body) : list nat :=
  match b with
  | BValue (PPlain _) => []
  | BValue (PObject o) => [o]
  | BValue (PVariable v) => [v]
  | BObject props elems proto own =>
      map snd props ++ flat_map opt_list elems ++ (if own then opt_list proto else [])
  end.

(** Jsi_IncrRefCount, jsiValue.c:34-40; Jsi_ObjIncrRefCount, jsiObj.c:422-427.
    The assert (refCnt >= 0) and the overflow of the signed count are faults. *)
Definition INT_MAX := 2147483647.
Definition incr (a : nat) (h : heap) : res heap :=
  match get h a with
  | None => Fault
  | Some c => if (cnt c <? 0) || (INT_MAX <=? cnt c) then Fault else Ok (set_cnt a (cnt c + 1) h)
  end.

(** Jsi_DecrRefCount, jsiValue.c:42-56, with Jsi_ValueFree, jsiValue.c:172-213;
    Jsi_ObjDecrRefCount, jsiObj.c:429-446, with Jsi_ObjFree, jsiObj.c:304-368.
    A count that is not positive: nothing happens (-2 is returned).  Otherwise the count goes down;
    at 0 it is set to -1, all the cell refers to is let go of, and the cell is freed, which
    must not have happened meanwhile. *)
(** assert(v->d.lval != v) in ValueFree *)
Definition self_ref (a : nat) (b : body) : bool :=
  match b with BValue (PVariable x) => Nat.eqb x a | _ => false end.
Fixpoint let_go (dec : nat -> heap -> res heap) (a : nat) (l : list nat) (h : heap) : res heap :=
  match l with
  | [] => Ok h
  | x :: r => h <- dec x h ;; (if live h a then let_go dec a r h else Fault)   (* obj->arr is read again *)
  end.
Fixpoint decr (fuel : nat) (a : nat) (h : heap) : res heap :=
  match fuel with
  | O => Deep
  | S fuel =>
      match get h a with
      | None => Fault
      | Some c =>
          if cnt c <=? 0 then Ok h
          else if cnt c - 1 <=? 0 then
            if self_ref a (bd c) then Fault else
            h <- let_go (decr fuel) a (refs (bd c)) (set_cnt a (-1) h) ;;
            (if live h a then Ok (put h a None) else Fault)
          else Ok (set_cnt a (cnt c - 1) h)
      end
  end.
(** enough recursion for any heap (proved) *)
Definition decr_ref (a : nat) (h : heap) : res heap := decr (S (length h)) a h.

(** ValueNew, jsiValue.c:57-67 (refCnt is 0); Jsi_ObjNew, jsiObj.c:239-252 *)
Definition new_cell (n : Z) (b : body) (h : heap) : heap * nat := (h ++ [Some (mkC n b)], length h).

(** Jsi_ValueReset, jsiValue.c:215-227, with ValueFree, jsiValue.c:172-193: what the value refers to
    is let go of, and the value becomes undefined. *)
Definition undef : body := BValue (PPlain 0).
Definition reset (v : nat) (h : heap) : res heap :=
  match get h v with
  | Some (mkC _ (BValue (PPlain _))) => write v undef h
  | Some (mkC _ (BValue (PObject o))) => h <- decr_ref o h ;; write v undef h
  | Some (mkC _ (BValue (PVariable x))) =>
      if Nat.eqb x v then Fault else h <- decr_ref x h ;; write v undef h
  | _ => Fault
  end.

(** Jsi_ValueMakeNumber, Jsi_ValueMakeBool ... on an existing value, jsiValue.c:1591-1612 *)
Definition make_plain (v : nat) (n : Z) (h : heap) : res heap :=
  h <- reset v h ;; write v (BValue (PPlain n)) h.

(** Jsi_ValueMakeObject on an existing value, jsiValue.c:1547-1562 *)
Definition same_object (b : body) (o : nat) : bool :=
  match b with BValue (PObject o') => Nat.eqb o o' | _ => false end.
Definition make_object (v o : nat) (h : heap) : res heap :=
  match get h v with
  | None => Fault
  | Some c =>
      if same_object (bd c) o then Ok h
      else h <- reset v h ;; h <- write v (BValue (PObject o)) h ;; incr o h
  end.

(** jsiPushVar, jsiEval.c:897-906: the value becomes a reference to variable [x] *)
Definition same_variable (b : body) (o : nat) : bool :=
  match b with BValue (PVariable o') => Nat.eqb o o' | _ => false end.
Definition make_variable (v x : nat) (h : heap) : res heap :=
  h <- incr x h ;;
  match get h v with
  | None => Fault
  | Some c =>
      if Nat.eqb v x || same_variable (bd c) x then Ok h
      else h <- reset v h ;; write v (BValue (PVariable x)) h
  end.

(** jsi_ValueCopyMove, jsiValue.c:237-291.  [asserts]: the count of [to] is positive.  The referent
    of a variable [to] is kept until the end.  A copy of a value whose count is 0 does not count
    as a holder of what the value refers to ("if (to->refCnt)" after the assignment). *)
Definition payload_of (b : body) : option payload := match b with BValue p => Some p | _ => None end.
Definition incr_payload (p : payload) (h : heap) : res heap :=
  match p with PPlain _ => Ok h | PObject o => incr o h | PVariable v => incr v h end.
Definition copy_move (is_copy : bool) (to from : nat) (h : heap) : res heap :=
  if Nat.eqb to from then Ok h
  else
    match get h to with
    | None => Fault
    | Some ct =>
        if cnt ct <=? 0 then Fault
        else
          let ovt := match bd ct with BValue (PVariable x) => Some x | _ => None end in
          h <- (match ovt with Some x => incr x h | None => Ok h end) ;;
          h <- reset to h ;;
          match get h from with
          | Some (mkC n (BValue p)) =>
              h <- write to (BValue p) h ;;
              (if is_copy then
                 h <- (if n =? 0 then Ok h else incr_payload p h) ;;
                 (match ovt with Some x => decr_ref x h | None => Ok h end)
               else
                 h <- (match ovt with Some x => decr_ref x h | None => Ok h end) ;;
                 write from undef h)
          | _ => Fault
          end
    end.
Definition copy := copy_move true.
Definition move := copy_move false.

(** ValueDup, jsiValue.c:76-84: a new value, held once by the caller *)
Definition dup (v : nat) (h : heap) : res (heap * nat) :=
  let '(h, a) := new_cell 1 undef h in h <- copy a v h ;; Ok (h, a).

(** Jsi_ObjArraySizer, jsiObj.c:449-468: None: "array size too big".  The list of elements is what
    is allocated up to arrCnt. *)
Definition too_big (max len : nat) : bool :=
  (Nat.leb max len) || (Nat.ltb max (len + 1 + (15 - (len + 1 + 15) mod 16))).
Definition sized (len : nat) (l : list (option nat)) : list (option nat) :=
  l ++ repeat None (len - length l).
Fixpoint replace {A} (l : list A) (n : nat) (x : A) : list A :=
  match l, n with
  | [], _ => []
  | _ :: r, O => x :: r
  | y :: r, S n => y :: replace r n x
  end.

(** Jsi_ObjArrayAdd, jsiObj.c:384-400; false: JSI_ERROR *)
Definition array_add (max : nat) (o v : nat) (h : heap) : res (heap * bool) :=
  match get h o with
  | Some (mkC _ (BObject ps es pr w)) =>
      let len := length es in
      if too_big max (len + 1) then Ok (h, false)
      else h <- write o (BObject ps (sized (len + 1) es) pr w) h ;;
           h <- write o (BObject ps (replace (sized (len + 1) es) len (Some v)) pr w) h ;;
           h <- incr v h ;; Ok (h, true)
  | _ => Fault
  end.

(** Jsi_ObjArraySet, jsiObj.c:402-420: the old element is let go of before the new one is counted *)
Definition array_set (max : nat) (o v n : nat) (h : heap) : res (heap * bool) :=
  match get h o with
  | Some (mkC _ (BObject ps es pr w)) =>
      if too_big max (n + 1) then Ok (h, false)
      else
        let es := sized (n + 1) es in
        h <- write o (BObject ps es pr w) h ;;
        match nth n es None with
        | Some x =>
            if Nat.eqb x v then Ok (h, true)
            else h <- decr_ref x h ;; h <- write o (BObject ps (replace es n (Some v)) pr w) h ;;
                 h <- incr v h ;; Ok (h, true)
        | None => h <- write o (BObject ps (replace es n (Some v)) pr w) h ;; h <- incr v h ;; Ok (h, true)
        end
  | _ => Fault
  end.

(** jsi_TreeObjSetValue, jsiObj.c:23-65, with Jsi_ValueReplace, jsiValue.c:229-237 *)
Fixpoint find (ps : list (Z * nat)) (k : Z) : option nat :=
  match ps with [] => None | (j, v) :: r => if j =? k then Some v else find r k end.
Fixpoint store (ps : list (Z * nat)) (k : Z) (v : nat) : list (Z * nat) :=
  match ps with [] => [(k, v)] | (j, w) :: r => if j =? k then (k, v) :: r else (j, w) :: store r k v end.
Fixpoint unset (ps : list (Z * nat)) (k : Z) : list (Z * nat) :=
  match ps with [] => [] | (j, w) :: r => if j =? k then r else (j, w) :: unset r k end.
Definition insert (o : nat) (k : Z) (v : nat) (h : heap) : res heap :=
  match get h o with
  | Some (mkC _ (BObject ps es pr w)) =>
      match find ps k with
      | Some x =>
          if Nat.eqb x v then Ok h
          else h <- decr_ref x h ;; h <- write o (BObject (store ps k v) es pr w) h ;; incr v h
      | None => h <- write o (BObject (store ps k v) es pr w) h ;; incr v h
      end
  | _ => Fault
  end.
(** Jsi_TreeUnset, jsiTree.c:821-827, with Jsi_TreeEntryDelete, jsiTree.c:583-640 (the entry is
    taken out first) and DeleteTreeValue, jsiObj.c:174-183 *)
Definition delete (o : nat) (k : Z) (h : heap) : res heap :=
  match get h o with
  | Some (mkC _ (BObject ps es pr w)) =>
      match find ps k with
      | Some x => h <- write o (BObject (unset ps k) es pr w) h ;; h <- decr_ref x h ;;
                  (if live h o then Ok h else Fault)     (* treePtr->opts is read again *)
      | None => Ok h
      end
  | _ => Fault
  end.

(** The prototype of an object made by "new F", jsiEval.c:780-784, or Object.create,
    jsiProto.c:643-648 *)
Definition set_proto (o p : nat) (h : heap) : res heap :=
  match get h o with
  | Some (mkC _ (BObject ps es _ _)) => h <- write o (BObject ps es (Some p) true) h ;; incr p h
  | _ => Fault
  end.
(** Object.setPrototypeOf, jsiProto.c:569-583, [v] and [a] referring to objects: a prototype with
    properties of its own is duplicated; otherwise its own prototype is taken, uncounted.
    The old prototype is not let go of, and clearProto is never taken back. *)
Definition set_prototype_of (v a : nat) (h : heap) : res heap :=
  match get h v, get h a with
  | Some (mkC _ (BValue (PObject ov))), Some (mkC _ (BValue (PObject oa))) =>
      match get h ov, get h oa with
      | Some (mkC _ (BObject ps es pr w)), Some (mkC _ (BObject aps _ apr _)) =>
          if negb (match aps with [] => true | _ => false end) && negb (Nat.eqb oa ov) then
            p <- dup a h ;; write ov (BObject ps es (Some (snd p)) true) (fst p)
          else write ov (BObject ps es apr w) h
      | _, _ => Fault
      end
  | _, _ => Fault
  end.

(** Jsi_ValueReplace, jsiValue.c:229-237, on a pointer variable of the caller that holds [a] *)
Definition value_replace (a b : nat) (h : heap) : res heap :=
  if Nat.eqb a b then Ok h else h <- decr_ref a h ;; incr b h.

(** Jsi_IsShared, jsiValue.c:28-32 *)
Definition is_shared (v : nat) (h : heap) : res bool :=
  match get h v with Some c => Ok (1 <? cnt c) | None => Fault end.

(** The calls of a C program that uses the API, and what they return *)
Inductive call :=
  | ValueNew | ValueNew1 | ObjNew
  | Incr (a : nat) | Decr (a : nat)
  | MakePlain (v : nat) (n : Z) | MakeObject (v o : nat) | MakeVariable (v x : nat)
  | Copy (to from : nat) | Move (to from : nat) | Dup (v : nat)
  | ArrayAdd (o v : nat) | ArraySet (o v n : nat)
  | Insert (o : nat) (k : Z) (v : nat) | Delete (o : nat) (k : Z)
  | SetProto (o p : nat) | SetPrototypeOf (v a : nat)
  | Replace (a b : nat) | IsShared (v : nat).
Inductive answer := ANone | AAddr (a : nat) | ABool (b : bool).

Section Run.
Variable max : nat.     (* interp->maxArrayList *)
Definition plainly (r : res heap) : res (heap * answer) := h <- r ;; Ok (h, ANone).
Definition addr (p : heap * nat) : heap * answer := (fst p, AAddr (snd p)).
Definition flag (p : heap * bool) : heap * answer := (fst p, ABool (snd p)).
Definition perform (c : call) (h : heap) : res (heap * answer) :=
  match c with
  | ValueNew => Ok (addr (new_cell 0 undef h))
  | ValueNew1 => Ok (addr (new_cell 1 undef h))
  | ObjNew => Ok (addr (new_cell 0 (BObject [] [] None false) h))
  | Incr a => plainly (incr a h)
  | Decr a => plainly (decr_ref a h)
  | MakePlain v n => plainly (make_plain v n h)
  | MakeObject v o => plainly (make_object v o h)
  | MakeVariable v x => plainly (make_variable v x h)
  | Copy t f => plainly (copy t f h)
  | Move t f => plainly (move t f h)
  | Dup v => p <- dup v h ;; Ok (addr p)
  | ArrayAdd o v => p <- array_add max o v h ;; Ok (flag p)
  | ArraySet o v n => p <- array_set max o v n h ;; Ok (flag p)
  | Insert o k v => plainly (insert o k v h)
  | Delete o k => plainly (delete o k h)
  | SetProto o p => plainly (set_proto o p h)
  | SetPrototypeOf v a => plainly (set_prototype_of v a h)
  | Replace a b => plainly (value_replace a b h)
  | IsShared v => b <- is_shared v h ;; Ok (h, ABool b)
  end.
(** A history of calls from the empty heap: the answers, and the heap at the end *)
Fixpoint run (cs : list call) (h : heap) : res (heap * list answer) :=
  match cs with
  | [] => Ok (h, [])
  | c :: r => p <- perform c h ;; q <- run r (fst p) ;; Ok (fst q, snd p :: snd q)
  end.
End Run.
