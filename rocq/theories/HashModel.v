(** Model of src/jsiHash.c: the chained hash tables behind Jsi_Hash.

    A bucket chain is the list of its entries; every entry carries the address ([hptr]) that
    malloc gave it, so that freeing and dangling pointers can be observed.  [None] is a crash
    or undefined behaviour.  Simplifications: no lock callback (lockHashProc NULL), no
    freeHashProc; allocation never fails; the multiplicative index is the one of the #else
    branch at jsiHash.c:15-19, which is what gcc compiles (jsiInt.h:167-181 tests the
    never-defined __X86_64__). *)
From Coq Require Import ZArith List Bool.
Import ListNotations.
From Verif Require Import TreeModel.
Local Open Scope Z_scope.

(** What depends on the key type of a table: findProc/createProc chosen by Jsi_HashNew
    (jsiHash.c:421-443), and the two tests of keyType in RebuildTable and EntryDelete. *)
Record kind (K : Type) := mkKind {
  k_hval   : K -> Z;                (* hash value stored in the entry *)
  k_index  : Z -> Z -> K -> Z;      (* downShift, mask, key: bucket used by find and create *)
  k_test   : K -> Z -> K -> bool;   (* key sought, entry's hval, entry's key: the match test *)
  k_delidx : Z -> Z -> Z -> Z;      (* downShift, mask, hval: bucket used by EntryDelete *)
  k_rebidx : Z -> Z -> Z -> K -> Z  (* downShift, mask, hval, key: bucket used by RebuildTable *)
}.
Arguments mkKind {K}. Arguments k_hval {K}. Arguments k_index {K}. Arguments k_test {K}.
Arguments k_delidx {K}. Arguments k_rebidx {K}.

Section Hash.
Context {K V : Type}.
Variable kd : kind K.

(** Jsi_HashEntry, jsiInt.h:605-613 *)
Record hentry := mkH { hptr : nat; hkey : K; hval : Z; hdata : option V }.

(** Jsi_Hash, jsiInt.h:616-632; [nextp] stands for malloc handing out fresh addresses. *)
Record table := mkTable {
  buckets : list (list hentry); numBuckets : Z; hnumEntries : Z; rebuildSize : Z;
  downShift : Z; mask : Z; nextp : nat }.

(** Jsi_HashNew, jsiHash.c:402-420 *)
Definition hash_new : table := mkTable (repeat [] 16) 16 0 (16 * 3) 28 15 1.

(** tablePtr->buckets[i] *)
Definition bucket (i : Z) (bs : list (list hentry)) : list hentry := nth (Z.to_nat i) bs [].
Fixpoint upd {A} (i : nat) (f : A -> A) (l : list A) : list A :=
  match l, i with
  | [], _ => []
  | x :: r, O => f x :: r
  | x :: r, S j => x :: upd j f r
  end.
Definition upd_bucket (i : Z) f (bs : list (list hentry)) := upd (Z.to_nat i) f bs.

(** findProc: HashStringFind 53-83, HashOneWordFind 202-220, jsi_HashArrayFind 274-285 *)
Definition hash_find (k : K) (t : table) : option hentry :=
  find (fun e => k_test kd k (hval e) (hkey e))
       (bucket (k_index kd (downShift t) (mask t) k) (buckets t)).

(** RebuildTable, jsiHash.c:356-400: four times the buckets, every entry moved to the front of
    its new chain.  [None]: rebuildSize (an int) overflows. *)
Definition rebuild (t : table) : option table :=
  let nb := numBuckets t * 4 in
  let rs := rebuildSize t * 4 in
  let ds := downShift t - 2 in
  let m := nb - 1 in
  if 2147483647 <? rs then None else
  let bs := fold_left (fun bs e => upd_bucket (k_rebidx kd ds m (hval e) (hkey e)) (cons e) bs)
                      (concat (buckets t)) (repeat [] (Z.to_nat nb)) in
  Some (mkTable bs nb (hnumEntries t) rs ds m (nextp t)).

(** createProc: HashStringCreate 85-132, HashOneWordCreate 222-259, jsi_HashArrayCreate
    287-328: returns the entry, whether it is new, and the table. *)
Definition hash_entry_new (k : K) (t : table) : option (hentry * bool * table) :=
  match hash_find k t with
  | Some e => Some (e, false, t)
  | None =>
      let e := mkH (nextp t) k (k_hval kd k) None in
      let t1 := mkTable (upd_bucket (k_index kd (downShift t) (mask t) k) (cons e) (buckets t))
                        (numBuckets t) (hnumEntries t + 1) (rebuildSize t) (downShift t) (mask t)
                        (S (nextp t)) in
      if hnumEntries t1 >=? rebuildSize t1
      then obind (rebuild t1) (fun t2 => Some (e, true, t2))
      else Some (e, true, t1)
  end.

(** Jsi_HashValueSet, jsiHash.c:546-549, on the entry at address p *)
Definition value_set (p : nat) (v : option V) (t : table) : table :=
  mkTable (map (map (fun e => if Nat.eqb (hptr e) p then mkH (hptr e) (hkey e) (hval e) v else e)) (buckets t))
          (numBuckets t) (hnumEntries t) (rebuildSize t) (downShift t) (mask t) (nextp t).

(** Jsi_HashSet, jsiHash.c:584-591 *)
Definition hash_set (k : K) (v : V) (t : table) : option table :=
  obind (hash_entry_new k t) (fun '(e, _, t') => Some (value_set (hptr e) (Some v) t')).

(** Jsi_HashGet, jsiHash.c:593-599 (absent and stored NULL are both NULL) *)
Definition hash_get (k : K) (t : table) : option V :=
  match hash_find k t with Some e => hdata e | None => None end.

(** The unlinking loop of Jsi_HashEntryDelete, jsiHash.c:468-481; [None]: the chain ends
    without the entry (NULL dereference at 476). *)
Fixpoint unlink (p : nat) (l : list hentry) : option (list hentry) :=
  match l with
  | [] => None
  | e :: r => if Nat.eqb (hptr e) p then Some r else obind (unlink p r) (fun r' => Some (e :: r'))
  end.

(** Jsi_HashEntryDelete, jsiHash.c:447-491 *)
Definition entry_delete (e : hentry) (t : table) : option table :=
  let i := k_delidx kd (downShift t) (mask t) (hval e) in
  obind (unlink (hptr e) (bucket i (buckets t))) (fun l =>
  Some (mkTable (upd_bucket i (fun _ => l) (buckets t)) (numBuckets t) (hnumEntries t - 1)
                (rebuildSize t) (downShift t) (mask t) (nextp t))).

(** Jsi_HashUnset, jsiHash.c:602-609 *)
Definition hash_unset (k : K) (t : table) : option (table * bool) :=
  match hash_find k t with
  | None => Some (t, false)
  | Some e => obind (entry_delete e t) (fun t' => Some (t', true))
  end.

(** Jsi_HashSize, jsiHash.c:672 *)
Definition hash_size (t : table) : Z := hnumEntries t.

(** Jsi_HashClear, jsiHash.c:493-519: every chain is emptied and its entries freed; numEntries is
    not touched; a heap bucket array is freed but stays referenced ([None]: the table that
    remains can no longer be used). *)
Definition hash_clear (t : table) : option table :=
  if numBuckets t =? 16
  then Some (mkTable (map (fun _ => []) (buckets t)) (numBuckets t) (hnumEntries t)
                     (rebuildSize t) (downShift t) (mask t) (nextp t))
  else None.

(** ** Iteration: Jsi_HashSearchFirst 531-538, Jsi_HashSearchNext 557-581 *)
Record hsearch := mkHS { nextIndex : nat; nextEntry : option nat }.

(** The chain from the entry at address p on; [None]: p is not a live entry. *)
Fixpoint chain_from (p : nat) (l : list hentry) : option (list hentry) :=
  match l with
  | [] => None
  | e :: r => if Nat.eqb (hptr e) p then Some (e :: r) else chain_from p r
  end.
Fixpoint deref (p : nat) (bs : list (list hentry)) : option (list hentry) :=
  match bs with
  | [] => None
  | b :: r => match chain_from p b with Some c => Some c | None => deref p r end
  end.
Definition head_ptr (l : list hentry) : option nat :=
  match l with [] => None | e :: _ => Some (hptr e) end.

(** The while loop 565-576: bs are the buckets from index i on. *)
Fixpoint scan (bs : list (list hentry)) (i : nat) : option (hentry * list hentry) * nat :=
  match bs with
  | [] => (None, i)
  | [] :: r => scan r (S i)
  | (e :: c) :: _ => (Some (e, c), S i)
  end.

Inductive hres := HEnd | HEntry (e : hentry) (s : hsearch) | HCrash.
Definition hash_next (t : table) (s : hsearch) : hres :=
  match nextEntry s with
  | Some p =>
      match deref p (buckets t) with
      | Some (e :: c) => HEntry e (mkHS (nextIndex s) (head_ptr c))
      | _ => HCrash
      end
  | None =>
      match scan (skipn (nextIndex s) (buckets t)) (nextIndex s) with
      | (None, _) => HEnd
      | (Some (e, c), i) => HEntry e (mkHS i (head_ptr c))
      end
  end.
Definition hash_first_state : hsearch := mkHS 0 None.

(** A whole walk, deleting each visited entry for which [del] says so right after it has been
    returned (the pattern of jsiInterp.c:2036-2044 and jsiCmds.c:1008-1014).
    [None]: crash, or [fuel] ran out. *)
Fixpoint hash_walk (fuel : nat) (del : hentry -> bool) (t : table) (s : hsearch)
  : option (list hentry * table) :=
  match fuel with
  | O => None
  | S f =>
      match hash_next t s with
      | HEnd => Some ([], t)
      | HCrash => None
      | HEntry e s' =>
          obind (if del e then entry_delete e t else Some t) (fun t' =>
          obind (hash_walk f del t' s') (fun '(l, t'') => Some (e :: l, t'')))
      end
  end.

(** ** Histories *)
Definition hrun_op (o : op K V) (t : table) : option table :=
  match o with
  | OpSet k v => hash_set k v t
  | OpUnset k => obind (hash_unset k t) (fun '(t', _) => Some t')
  end.
Fixpoint hrun (ops : list (op K V)) (t : table) : option table :=
  match ops with
  | [] => Some t
  | o :: rest => obind (hrun_op o t) (fun t' => hrun rest t')
  end.

(** Jsi_KeyAdd, jsiUtils.c:332-339: intern a string; the result is the address of the key
    stored inside the entry, represented by the entry's address. *)
Definition key_add (k : K) (t : table) : option (nat * table) :=
  obind (hash_entry_new k t) (fun '(e, _, t') => Some (hptr e, t')).
(** Jsi_KeyLookup, jsiUtils.c:341-349 *)
Definition key_lookup (k : K) (t : table) : option nat :=
  match hash_find k t with Some e => Some (hptr e) | None => None end.
Fixpoint key_adds (ks : list K) (t : table) : option (list nat * table) :=
  match ks with
  | [] => Some ([], t)
  | k :: r => obind (key_add k t) (fun '(p, t') =>
              obind (key_adds r t') (fun '(ps, t'') => Some (p :: ps, t'')))
  end.
End Hash.
Arguments hentry : clear implicits.
Arguments table : clear implicits.
Arguments hres : clear implicits.

(** ** The key types *)
Definition W64 : Z := 18446744073709551616.

(** HashString, jsiHash.c:43-52 (jsi_Hash is uintptr_t, 64 bits; char is signed) *)
Definition schar (b : Z) : Z := if b <? 128 then b else b - 256.
Fixpoint hash_string (r : Z) (s : list Z) : Z :=
  match s with
  | [] => r
  | c :: s' => hash_string ((r + ((r * 8) mod W64 + schar c mod W64) mod W64) mod W64) s'
  end.

Fixpoint bytes_eqb (a b : list Z) : bool :=
  match a, b with
  | [], [] => true
  | x :: a', y :: b' => (x =? y) && bytes_eqb a' b'
  | _, _ => false
  end.

(** JSI_KEYS_STRING *)
Definition string_kind : kind (list Z) := mkKind
  (hash_string 0)
  (fun ds m k => Z.land (hash_string 0 k) m)
  (fun k h k' => (h =? hash_string 0 k) && bytes_eqb k k')
  (fun ds m h => Z.land h m)
  (fun ds m h k => Z.land h m).

(** jsi_HashArray, jsiHash.c:261-272: 32-bit *)
Fixpoint hash_array (r : Z) (s : list Z) : Z :=
  match s with
  | [] => r
  | c :: s' => hash_array ((r + ((r * 8) mod 4294967296 + c)) mod 4294967296) s'
  end.

(** Structs (keyType >= JSI_KEYS_STRUCT_MINSIZE): keys are byte blocks of equal size *)
Definition struct_kind : kind (list Z) := mkKind
  (hash_array 0)
  (fun ds m k => Z.land (hash_array 0 k) m)
  (fun k h k' => (h =? hash_array 0 k) && (memcmp k' k =? 0))
  (fun ds m h => Z.land h m)
  (fun ds m h k => Z.land h m).

(** RANDOM_INDEX, jsiHash.c:16-17 *)
Definition random_index (ds m k : Z) : Z :=
  Z.land (Z.shiftr ((k * 1103515245) mod W64) ds) m.

(** JSI_KEYS_ONEWORD *)
Definition oneword_kind : kind Z := mkKind
  (fun k => k)
  random_index
  (fun k h k' => k' =? k)
  random_index
  (fun ds m h k => random_index ds m k).

(** JSI_KEYS_STRINGKEY: created with the one-word procedures (428-431), but RebuildTable (373)
    and EntryDelete (462) treat it as a string key. *)
Definition stringkey_kind : kind Z := mkKind
  (fun k => k)
  random_index
  (fun k h k' => k' =? k)
  (fun ds m h => Z.land h m)
  (fun ds m h k => Z.land h m).
