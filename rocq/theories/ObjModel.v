(** * Model of properties, prototypes, Object.freeze, Object.assign, Object.values, Object.keys and for-in
    (jsiValue.c, jsiObj.c, jsiEval.c, jsiProto.c, jsiCode.c).

    What is left out: accessors (get and set in literals), the names this, callee, constructor and prototype, const
    variables, properties of functions and of strings.  The tree of an object is the list of its entries in key order (the
    tree itself: TreeModel.v).  An object expression in an operation is taken as evaluated: it is the number of the object. *)
From Coq Require Import ZArith List Bool.
Import ListNotations.
Require Import Verif.TreeModel.
Local Open Scope nat_scope.

Definition key := list Z.
Definition key_dec : forall a b : key, {a = b} + {a <> b} := list_eq_dec Z.eq_dec.
Definition keqb (a b : key) : bool := if key_dec a b then true else false.

Inductive val := VUndef | VNum (z : Z) | VStr (k : key) | VRef (o : nat).
(** Jsi_Value (jsiInt.h): the value and the flag f.bits.frozen (JSI_OM_ISFROZEN). *)
Record cell := mkC { cv : val; cf : bool }.
(** A Jsi_TreeEntry: key, pointer to the Jsi_Value, not f.bits.dontenum. *)
Record ent := mkE { ek : key; ec : nat; een : bool }.
(** Jsi_Obj (jsiInt.h 520-545): tree, __proto__, freeze, freezeNoModify, freezeReadCheck, and arr if it is an array. *)
Record obj := mkO { props : list ent; proto : option nat; frz : bool; nomod : bool; rdchk : bool; els : option (list nat) }.
(** All values, all objects, and for each variable its value. *)
Record st := mkS { cells : list cell; objs : list obj; vars : list nat }.

Definition rval := (val * bool)%type.
Definition get_cell (s : st) (c : nat) : rval := match nth_error (cells s) c with Some x => (cv x, cf x) | None => (VUndef, false) end.
Fixpoint upd {A} (l : list A) (i : nat) (x : A) : list A :=
  match l, i with
  | [], _ => []
  | _ :: r, 0 => x :: r
  | y :: r, S i => y :: upd r i x
  end.
Definition set_cell (s : st) (c : nat) (x : rval) : st := mkS (upd (cells s) c (mkC (fst x) (snd x))) (objs s) (vars s).
Definition new_cell (s : st) (x : rval) : st * nat := (mkS (cells s ++ [mkC (fst x) (snd x)]) (objs s) (vars s), length (cells s)).
Definition set_obj (s : st) (o : nat) (b : obj) : st := mkS (cells s) (upd (objs s) o b) (vars s).

(** Jsi_TreeObjGetValue (jsiObj.c:8-21). *)
Fixpoint find_key (k : key) (l : list ent) : option nat :=
  match l with [] => None | e :: r => if keqb (ek e) k then Some (ec e) else find_key k r end.
(** jsi_TreeObjSetValue (jsiObj.c:23-65): the entry of the key gets the new pointer; a new entry goes to its place in key order. *)
Fixpoint put (k : key) (c : nat) (l : list ent) : list ent :=
  match l with
  | [] => [mkE k c true]
  | e :: r => if (strcmp k (ek e) <? 0)%Z then mkE k c true :: e :: r else e :: put k c r
  end.
Definition replace_ent (k : key) (c : nat) (l : list ent) : list ent :=
  map (fun e => if keqb (ek e) k then mkE (ek e) c (een e) else e) l.
Definition put_ent (k : key) (c : nat) (l : list ent) : list ent :=
  match find_key k l with Some _ => replace_ent k c l | None => put k c l end.
Definition del_ent (k : key) (l : list ent) : list ent := filter (fun e => negb (keqb (ek e) k)) l.

(** jsi_ValueLookupBase (jsiValue.c:980-1013): own property or that of the prototypes.  A cycle of prototypes is an
    endless recursion. *)
Inductive found := Found (c : nat) | Missing | Loops.
Fixpoint lookup (fuel : nat) (s : st) (o : nat) (k : key) : found :=
  match fuel with
  | 0 => Loops
  | S f =>
      match nth_error (objs s) o with
      | None => Missing
      | Some b => match find_key k (props b) with
                  | Some c => Found c
                  | None => match proto b with Some p => lookup f s p k | None => Missing end
                  end
      end
  end.
Definition look (s : st) (o : nat) (k : key) : found := lookup (S (length (objs s))) s o k.

Definition str_length : key := [108; 101; 110; 103; 116; 104]%Z.
(** jsi_isDebugKey (jsiCmds.c:4804-4808): Test, Trace, Assert, Debug. *)
Definition debug_key (k : key) : bool :=
  keqb k [84; 101; 115; 116]%Z || keqb k [84; 114; 97; 99; 101]%Z || keqb k [65; 115; 115; 101; 114; 116]%Z || keqb k [68; 101; 98; 117; 103]%Z.

Inductive res (A : Type) := Ok (a : A) | Err | Crash.
Arguments Ok {A}. Arguments Err {A}. Arguments Crash {A}.
(** jsiEvalSubscript with right_val (jsiEval.c:983-1031, jsiValue.c:1016-1049): the value found, with its flags; length; undefined, or an
    error if the object is frozen with the read check. *)
Definition read (s : st) (o : nat) (k : key) : res rval :=
  match nth_error (objs s) o with
  | None => Err
  | Some b =>
      match look s o k with
      | Found c => Ok (get_cell s c)
      | Loops => Crash
      | Missing =>
          if keqb k str_length then
            Ok (VNum (Z.of_nat (match els b with Some l => length l | None => length (props b) end)), false)
          else if frz b && rdchk b && negb (debug_key k) then Err
          else Ok (VUndef, false)
      end
  end.

(** Right-hand sides.  A variable or property gives a copy of the value and of its flags (jsiVarDeref, jsiEval.c:207-218;
    jsi_ValueCopyMove, jsiValue.c:238-290 copies the whole structure); operators are any functions. *)
Inductive expr :=
| ELit (v : val)
| EVar (y : nat)
| EProp (o : nat) (k : key)
| EElem (a i : nat)
| EApp (f : rval -> rval -> option rval) (e1 e2 : expr).
Fixpoint eval (s : st) (e : expr) : res rval :=
  match e with
  | ELit v => Ok (v, false)
  | EVar y => match nth_error (vars s) y with Some c => Ok (get_cell s c) | None => Err end
  | EProp o k => read s o k
  | EElem a i =>
      match nth_error (objs s) a with
      | Some b => match els b with
                  | Some l => match nth_error l i with
                              | Some c => Ok (get_cell s c)
                              | None => if frz b && rdchk b then Err else Ok (VUndef, false)
                              end
                  | None => Err
                  end
      | None => Err
      end
  | EApp f e1 e2 =>
      match eval s e1 with
      | Ok x => match eval s e2 with
                | Ok y => match f x y with Some z => Ok z | None => Err end
                | Err => Err | Crash => Crash
                end
      | Err => Err | Crash => Crash
      end
  end.

(** jsi_ObjValInsert (jsiValue.c:1406-1433): the pointer itself is stored. *)
Definition insert (s : st) (o : nat) (k : key) (c : nat) : st * bool :=
  match nth_error (objs s) o with
  | None => (s, false)
  | Some b =>
      if frz b && (nomod b || match find_key k (props b) with Some _ => false | None => true end) then (s, false)
      else (set_obj s o (mkO (put_ent k c (props b)) (proto b) (frz b) (nomod b) (rdchk b) (els b)), true)
  end.

(** jsi_ValueObjKeyAssign (jsiEval.c:1072-1108): o.k = value stores a duplicate. *)
Definition assign_key (s : st) (o : nat) (k : key) (x : rval) : st * bool :=
  let (s1, c) := new_cell s x in
  match insert s1 o k c with
  | (s2, true) => (s2, true)
  | (_, false) => (s, false)
  end.

(** jsi_ObjSetFlag (jsiValue.c:1502-1525). *)
Definition flag_cells (s : st) (on : bool) (cs : list nat) : st :=
  fold_left (fun s c => let (v, _) := get_cell s c in set_cell s c (v, on)) cs s.

(** ObjectAssignCmd, the loop over one source (jsiProto.c:548-555). *)
Fixpoint assign_all (s : st) (o : nat) (l : list ent) : st * bool :=
  match l with
  | [] => (s, true)
  | e :: r => if een e then match insert s o (ek e) (ec e) with
                            | (s', true) => assign_all s' o r
                            | (s', false) => (s', false)
                            end
              else assign_all s o r
  end.

Inductive op :=
| OSet (o : nat) (k : key) (e : expr)                                     (* o.k = e *)
| OUpd (o : nat) (k : key) (f : rval -> rval -> option rval) (e : expr)   (* o.k += e and the like *)
| OInc (o : nat) (k : key) (g : val -> val * bool)                        (* o.k++ and the like *)
| ODel (o : nat) (k : key)                                                (* delete o.k *)
| OFreeze (o : nat) (freeze modifyok readcheck : bool)                    (* Object.freeze(o, ...) *)
| OCreate (p : option nat)                                                (* Object.create(p) *)
| OAssign (o src : nat)                                                   (* Object.assign(o, src) *)
| OProto (o p : nat)                                                      (* Object.setPrototypeOf(o, p) *)
| OValues (o : nat)                                                       (* Object.values(o) *)
| OArray (l : list val)                                                   (* [v1, v2, ...] *)
| OElem (a i : nat) (e : expr)                                            (* a[i] = e, an element there is *)
| ONewVar                                                                 (* var y *)
| OVar (y : nat) (e : expr)                                               (* y = e *)
| OVarInc (y : nat) (g : val -> val * bool).                              (* y++ and the like *)

Inductive outcome := Done | Failed | Crashed.
Definition with_val (s : st) (r : res rval) (f : rval -> st * outcome) : st * outcome :=
  match r with Ok x => f x | Err => (s, Failed) | Crash => (s, Crashed) end.
Definition ok (r : st * bool) : st * outcome := (fst r, if snd r then Done else Failed).

(** OP_INC, OP_DEC (jsiEval.c:1703-1735) on the value c: the flag is looked at, then it is changed in place.  g is the
    conversion to a number followed by the addition; its second component is false if that reports an error. *)
Definition inc_cell (s : st) (c : nat) (g : val -> val * bool) : st * outcome :=
  let (v, f) := get_cell s c in
  if f then (s, Failed) else
  let (v', r) := g v in (set_cell s c (v', false), if r then Done else Failed).

Definition step (s : st) (x : op) : st * outcome :=
  match x with
  | OSet o k e =>                                                         (* OP_ASSIGN, jsiEval.c:1303-1317 *)
      with_val s (eval s e) (fun x => ok (assign_key s o k x))
  | OUpd o k f e =>                                                       (* opassign, jsiCode.c:581-594 *)
      with_val s (read s o k) (fun x => with_val s (eval s e) (fun y =>
        match f x y with Some z => ok (assign_key s o k z) | None => (s, Failed) end))
  | OInc o k g =>                                                         (* OP_SUBSCRIPT without right_val, then OP_INC *)
      match nth_error (objs s) o with
      | None => (s, Failed)
      | Some _ => match look s o k with
                  | Found c => inc_cell s c g
                  | Missing => (s, Failed)
                  | Loops => (s, Crashed)
                  end
      end
  | ODel o k =>                                                           (* OP_DELETE, jsiEval.c:1898-1911, 454-468 *)
      match nth_error (objs s) o with
      | None => (s, Failed)
      | Some b => if frz b then (s, Failed)
                  else (set_obj s o (mkO (del_ent k (props b)) (proto b) (frz b) (nomod b) (rdchk b) (els b)), Done)
      end
  | OFreeze o f m r =>                                                    (* ObjectFreezeCmd, jsiProto.c:366-398 *)
      match nth_error (objs s) o with
      | None => (s, Failed)
      | Some b =>
          let s1 := set_obj s o (mkO (props b) (proto b) f (negb m) r (els b)) in
          (if Bool.eqb (negb (nomod b)) m then s1
           else flag_cells s1 (negb m) (match els b with Some l => l | None => map ec (props b) end), Done)
      end
  | OCreate p =>                                                          (* ObjectCreateCmd, jsiProto.c:628-648 *)
      if match p with Some p => p <? length (objs s) | None => true end
      then (mkS (cells s) (objs s ++ [mkO [] p false false false None]) (vars s), Done) else (s, Failed)
  | OAssign o src =>                                                      (* ObjectAssignCmd, jsiProto.c:526-556 *)
      match nth_error (objs s) o, nth_error (objs s) src with
      | Some _, Some b => ok (assign_all s o (props b))
      | _, _ => (s, Failed)
      end
  | OProto o p =>                                                         (* jsi_SetPrototypeOfCmd, jsiProto.c:569-583 *)
      match nth_error (objs s) o, nth_error (objs s) p with
      | Some b, Some c =>
          let q := if match props c with [] => false | _ => true end && negb (p =? o) then Some p else proto c in
          (set_obj s o (mkO (props b) q (frz b) (nomod b) (rdchk b) (els b)), Done)
      | _, _ => (s, Failed)
      end
  | OValues o =>                                                          (* ObjectValuesCmd, Jsi_ObjGetValues, jsiObj.c:125-155: the values themselves *)
      match nth_error (objs s) o with
      | Some b => (mkS (cells s) (objs s ++ [mkO [] None false false false (Some (map ec (props b)))]) (vars s), Done)
      | None => (s, Failed)
      end
  | OArray l =>                                                           (* OP_ARRAY *)
      (mkS (cells s ++ map (fun v => mkC v false) l)
           (objs s ++ [mkO [] None false false false (Some (seq (length (cells s)) (length l)))]) (vars s), Done)
  | OElem a i e =>                                                        (* jsi_ObjArraySetDup, jsiEval.c:1047-1069: copied into the value that is there *)
      with_val s (eval s e) (fun x =>
        match nth_error (objs s) a with
        | Some b => match els b with
                    | Some l => match nth_error l i with Some c => (set_cell s c x, Done) | None => (s, Failed) end
                    | None => (s, Failed)
                    end
        | None => (s, Failed)
        end)
  | ONewVar => (mkS (cells s ++ [mkC VUndef false]) (objs s) (vars s ++ [length (cells s)]), Done)
  | OVar y e =>                                                           (* jsiValueAssign, jsiEval.c:150-190 *)
      with_val s (eval s e) (fun x =>
        match nth_error (vars s) y with Some c => (set_cell s c x, Done) | None => (s, Failed) end)
  | OVarInc y g => match nth_error (vars s) y with Some c => inc_cell s c g | None => (s, Failed) end
  end.
Definition run (s : st) (l : list op) : st := fold_left (fun s x => fst (step s x)) l s.
Definition start : st := mkS [] [] [].

(** Jsi_IterGetKeys (jsiValue.c:1459-1500) with IterObjInsertKey (1318-1336): the enumerable keys in key order; those of prototypes if not
    there yet. *)
Definition enum_keys (l : list ent) : list key := map ek (filter een l).
Definition add_keys (depth : nat) (acc ks : list key) : list key :=
  fold_left (fun acc k => if negb (depth =? 0) && existsb (keqb k) acc then acc else acc ++ [k]) ks acc.
Fixpoint iter_keys (fuel depth : nat) (s : st) (o : nat) (acc : list key) : option (list key) :=
  match fuel with
  | 0 => None
  | S f => match nth_error (objs s) o with
           | None => Some acc
           | Some b => let acc' := add_keys depth acc (enum_keys (props b)) in
                       match proto b with Some p => iter_keys f (S depth) s p acc' | None => Some acc' end
           end
  end.
(** Jsi_ValueGetKeys (jsiValue.c:1169-1211), for objects that are not arrays. *)
Definition object_keys (s : st) (o : nat) : option (list key) := iter_keys (S (length (objs s))) 0 s o [].
(** jsi_HasOwnPropertyCmd (jsiProto.c:586-594). *)
Definition has_own (s : st) (o : nat) (k : key) : bool :=
  match nth_error (objs s) o with
  | Some b => match find_key k (props b) with Some _ => true | None => false end
  | None => false
  end.
(** Jsi_ValueKeyPresent (jsiValue.c:1133-1143). *)
Fixpoint present (fuel : nat) (s : st) (o : nat) (k : key) : option bool :=
  match fuel with
  | 0 => None
  | S f => match nth_error (objs s) o with
           | None => Some false
           | Some b => match find_key k (props b) with
                       | Some _ => Some true
                       | None => match proto b with Some p => present f s p k | None => Some false end
                       end
           end
  end.
(** for (k in o) body: OP_KEY and OP_NEXT (jsiEval.c:1620-1702).  The body may do anything; false: it leaves the loop. *)
Section ForIn.
Context {X : Type}.
Variable body : st * X -> key -> (st * X) * bool.
Fixpoint visits (o : nat) (ks : list key) (w : st * X) : option (st * X) :=
  match ks with
  | [] => Some w
  | k :: r => match present (S (length (objs (fst w)))) (fst w) o k with
              | None => None
              | Some false => visits o r w
              | Some true => match body w k with
                             | (w', true) => visits o r w'
                             | (w', false) => Some w'
                             end
              end
  end.
Definition for_in (o : nat) (w : st * X) : option (st * X) :=
  match object_keys (fst w) o with Some ks => visits o ks w | None => None end.
End ForIn.
