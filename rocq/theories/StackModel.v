(** Model of Jsi_Stack (src/jsiUtils.c 2231-2298, struct in src/jsi.h 889-893).  The vector is the
    list of its slots, [None] a slot whose contents are indeterminate; its length is the number of
    whole slots in the block that realloc returned.  Reading or writing outside the block, or
    reading an indeterminate slot, is [Bad].  Allocation failure is not modelled. *)
From Coq Require Import ZArith List Bool Lia.
Import ListNotations.
From Verif Require Import LimitModel.
Local Open Scope Z_scope.
Arguments wrap32 : simpl never.

Section S.
Variable V : Type.

(** jsi.h 889-893 *)
Record stack := mkStack { len : Z; maxlen : Z; vector : list (option V) }.
(** The outcomes of a call: the result and the new stack, or a memory error. *)
Inductive out (A : Type) := Ok (a : A) (s : stack) | Bad.
Arguments Ok {A}. Arguments Bad {A}.

(** jsiUtils.c 2231-2235: calloc'ed *)
Definition stack_new : stack := mkStack 0 0 [].

(** jsiUtils.c 2242-2245 *)
Definition stack_size (s : stack) : out Z := Ok (len s) s.

(** vector[i] *)
Definition slot (i : Z) (s : stack) : option V :=
  if (0 <=? i) && (i <? Z.of_nat (length (vector s))) then nth (Z.to_nat i) (vector s) None else None.
Definition inside (i : Z) (s : stack) : bool := (0 <=? i) && (i <? Z.of_nat (length (vector s))).
Definition store (i : Z) (v : V) (s : stack) : list (option V) :=
  firstn (Z.to_nat i) (vector s) ++ Some v :: skipn (S (Z.to_nat i)) (vector s).

(** Jsi_Realloc, jsiUtils.c 46-50: the size is an unsigned int, so sizeof(void pointer) * maxlen is
    reduced mod 2^32; the old contents are kept up to the smaller size. *)
Definition realloc (vec : list (option V)) (n : Z) : list (option V) :=
  let slots := Z.to_nat (((8 * n) mod 2 ^ 32) / 8) in
  firstn slots vec ++ repeat None (slots - length vec).

(** jsiUtils.c 2247-2257; ints wrap. *)
Definition stack_push (v : V) (s : stack) : out unit :=
  let needed := wrap32 (len s + 1) in
  let s1 := if maxlen s <? needed
            then let m := if needed <? 20 then 20 else wrap32 (needed * 2) in
                 mkStack (len s) m (realloc (vector s) m)
            else s in
  if inside (len s1) s1 then Ok tt (mkStack (wrap32 (len s1 + 1)) (maxlen s1) (store (len s1) v s1)) else Bad.

(** jsiUtils.c 2259-2265; NULL is None *)
Definition stack_pop (s : stack) : out (option V) :=
  if len s =? 0 then Ok None s
  else let s1 := mkStack (len s - 1) (maxlen s) (vector s) in
       match slot (len s1) s1 with Some v => Ok (Some v) s1 | None => Bad end.

(** jsiUtils.c 2267-2275; memmove of len-1 slots down by one *)
Definition stack_unshift (s : stack) : out (option V) :=
  if len s =? 0 then Ok None s
  else let n := len s - 1 in
       match slot 0 s with
       | Some v => if (0 <=? n) && (n <? Z.of_nat (length (vector s)))
                   then Ok (Some v) (mkStack n (maxlen s)
                          (firstn (Z.to_nat n) (skipn 1 (vector s)) ++ skipn (Z.to_nat n) (vector s)))
                   else Bad
       | None => Bad
       end.

(** jsiUtils.c 2277-2282 *)
Definition stack_peek (s : stack) : out (option V) :=
  if len s =? 0 then Ok None s
  else match slot (len s - 1) s with Some v => Ok (Some v) s | None => Bad end.

(** jsiUtils.c 2284-2289 *)
Definition stack_head (s : stack) : out (option V) :=
  if len s =? 0 then Ok None s
  else match slot 0 s with Some v => Ok (Some v) s | None => Bad end.

(** jsiUtils.c 2291-2297: the elements in the order in which freeProc is called on them. *)
Fixpoint free_loop (n : nat) (i : Z) (s : stack) : option (list V) :=
  match n with
  | O => Some []
  | S n' => match slot i s, free_loop n' (i + 1) s with Some v, Some r => Some (v :: r) | _, _ => None end
  end.
Definition stack_free_elements (s : stack) : out (list V) :=
  match free_loop (Z.to_nat (len s)) 0 s with Some l => Ok l (mkStack 0 (maxlen s) (vector s)) | None => Bad end.

(** A call of the API. *)
Inductive call := Push (v : V) | Pop | Unshift | Peek | Head | Size | FreeElements.
Inductive answer := ANone | AElem (v : option V) | ANum (n : Z) | AFreed (l : list V).
Definition lift {A} (f : A -> answer) (o : out A) : option (answer * stack) :=
  match o with Ok a s => Some (f a, s) | Bad => None end.
Definition do_call (c : call) (s : stack) : option (answer * stack) :=
  match c with
  | Push v => lift (fun _ => ANone) (stack_push v s)
  | Pop => lift AElem (stack_pop s)
  | Unshift => lift AElem (stack_unshift s)
  | Peek => lift AElem (stack_peek s)
  | Head => lift AElem (stack_head s)
  | Size => lift ANum (stack_size s)
  | FreeElements => lift AFreed (stack_free_elements s)
  end.
Fixpoint calls (cs : list call) (s : stack) : option (list answer * stack) :=
  match cs with
  | [] => Some ([], s)
  | c :: r => match do_call c s with
              | Some (a, s') => match calls r s' with Some (l, s2) => Some (a :: l, s2) | None => None end
              | None => None
              end
  end.
End S.
Arguments Ok {V A}. Arguments Bad {V A}.
Arguments Push {V}. Arguments Pop {V}. Arguments Unshift {V}. Arguments Peek {V}. Arguments Head {V}.
Arguments Size {V}. Arguments FreeElements {V}.
Arguments ANone {V}. Arguments AElem {V}. Arguments ANum {V}. Arguments AFreed {V}.
Arguments stack_new {V}. Arguments do_call {V}. Arguments calls {V}. Arguments len {V}. Arguments maxlen {V}. Arguments vector {V}.
