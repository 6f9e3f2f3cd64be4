(** Model of src/jsiDString.c: dynamic strings.

    Memory cells are [option Z]: [None] is a byte that was never written (malloc'ed memory).
    Every function returns [None] when it would read or write outside the storage it owns.
    jsi_DsCheckInit (29-46) only acts on strings declared "= {}", which it brings into the state
    of Jsi_DSInit; that is the initial state here.  Allocation failure (213-216) is not modelled. *)
From Coq Require Import ZArith List Bool.
Import ListNotations.
Local Open Scope Z_scope.

Notation cell := (option Z) (only parsing).
(** Jsi_DString, jsi.h:350-358: Str, strA, len, spaceAvl; staticSize is the size of Str. *)
Record ds := DS { d_str : list cell; d_heap : option (list cell); d_len : Z; d_space : Z }.

Definition MAX_ALLOC : Z := 100000000.     (* JSI_MAX_ALLOC_BUF, jsiInt.h:249 *)
Definition PRINTF_BUF : Z := 8192.         (* JSI_PRINTF_BUFSIZ *)

Definition size {A} (l : list A) : Z := Z.of_nat (length l).
Definition static_size (d : ds) : Z := size (d_str d).

(** Jsi_DSInit, jsiDString.c:60-66: Str[0]=0, the rest is not initialised *)
Definition ds_init : ds := DS (Some 0 :: repeat None 199) None 0 200.
(** JSI_DSTRING_VAR, jsi.h:361-365, for a string declared with size siz > 0 *)
Definition ds_var (siz : nat) : ds := DS (Some 0 :: repeat None (siz - 1)) None 0 0.

(** jsi_DSValue, jsiDString.c:26: the storage in use *)
Definition buffer (d : ds) : list cell := match d_heap d with Some h => h | None => d_str d end.
Definition set_buffer (d : ds) (b : list cell) : ds :=
  match d_heap d with
  | Some _ => DS (d_str d) (Some b) (d_len d) (d_space d)
  | None => DS b None (d_len d) (d_space d)
  end.
Definition set_len (d : ds) (n : Z) : ds := DS (d_str d) (d_heap d) n (d_space d).

(** Writing the cells [cs] at offset [off] *)
Definition store (b : list cell) (off : Z) (cs : list cell) : option (list cell) :=
  if (0 <=? off) && (off + size cs <=? size b)
  then Some (firstn (Z.to_nat off) b ++ cs ++ skipn (Z.to_nat off + length cs) b)
  else None.

(** realloc(p, n): the first bytes are kept, new ones are not initialised *)
Definition resize (b : list cell) (n : Z) : list cell :=
  firstn (Z.to_nat n) b ++ repeat None (Z.to_nat n - length b).

(** Jsi_DSSetLength, jsiDString.c:192-221: new state and return value *)
Definition ds_set_length (d : ds) (length0 : Z) : option (ds * Z) :=
  let len := if MAX_ALLOC <=? length0 then MAX_ALLOC - 1 else length0 in       (* 195-198 *)
  let d1 :=
    if d_space d <=? len then                                                   (* 200 *)
      match d_heap d with
      | Some h => Some (DS (d_str d) (Some (resize h (len + 1))) (d_len d) len)
      | None =>
        if static_size d <=? len then                                           (* 204 *)
          if 0 <? d_len d then                                                  (* 210-211 *)
            if d_len d + 1 <=? static_size d then
              match store (repeat None (Z.to_nat (len + 1))) 0 (firstn (Z.to_nat (d_len d + 1)) (d_str d)) with
              | Some h => Some (DS (d_str d) (Some h) (d_len d) len)
              | None => None
              end
            else None
          else Some (DS (d_str d) (Some (repeat None (Z.to_nat (len + 1)))) (d_len d) len)
        else Some (DS (d_str d) None (d_len d) len)
      end
    else Some d in
  match d1 with
  | None => None
  | Some d1 =>
    if len <? d_len d1 then                                                     (* 215-219 *)
      match store (buffer d1) len [Some 0] with
      | Some b => Some (set_len (set_buffer d1 b) len, d_space d1)
      | None => None
      end
    else Some (d1, d_space d1)
  end.

(** Jsi_DSAppendLen, jsiDString.c:93-114, for a non-NULL string given as the list of the [length]
    bytes to append (the caller has that many; a negative length means up to the NUL). *)
Definition ds_append (d : ds) (s : list Z) : option ds :=
  let nsiz := size s + d_len d + 1 in
  let write d :=
    match store (buffer d) (d_len d) (map Some s ++ [Some 0]) with              (* 107-109 *)
    | Some b => Some (set_len (set_buffer d b) (d_len d + size s))
    | None => None
    end in
  if d_space d <=? nsiz then                                                    (* 101-106 *)
    let nsiz' := if nsiz <? d_space d * 2 then d_space d * 2 else nsiz in
    match ds_set_length d nsiz' with
    | None => None
    | Some (d', r) => if r <? nsiz' then Some d' else write d'
    end
  else write d.

(** Jsi_DSSet, jsiDString.c:224-230, str not NULL *)
Definition ds_set (d : ds) (s : list Z) : option ds :=
  match ds_set_length d 0 with Some (d', _) => ds_append d' s | None => None end.

(** Jsi_DSFree, jsiDString.c:72-85 (spaceAvl==0 happens only in the initial state of
    JSI_DSTRING_VAR, which is returned unchanged) *)
Definition ds_free (d : ds) : option ds :=
  if d_space d =? 0 then Some d
  else match store (d_str d) 0 [Some 0] with
       | Some b => Some (DS b None 0 (static_size d))
       | None => None
       end.

(** Jsi_DSFreeDup, jsiDString.c:238-253: the string handed out (the cells of the copy, or the
    heap buffer itself, up to the current length) and the new state *)
Definition ds_free_dup (d : ds) : option (ds * list cell) :=
  match d_heap d with
  | None =>
    match ds_set_length d 0 with
    | Some (d', _) => Some (d', firstn (Z.to_nat (d_len d)) (d_str d))
    | None => None
    end
  | Some h =>
    match store (d_str d) 0 [Some 0] with
    | Some b => Some (DS b None 0 (static_size d), firstn (Z.to_nat (d_len d)) h)
    | None => None
    end
  end.

(** What vsnprintf(p, n, ..) writes for the formatted text s: at most n-1 bytes and a NUL *)
Definition snprintf_cells (n : Z) (s : list Z) : list cell :=
  if n <=? 0 then [] else map Some (firstn (Z.to_nat (n - 1)) s) ++ [Some 0].

(** Jsi_DSPrintf, jsiDString.c:143-185, where [s] is the formatted text.  Line 173 reads the
    argument list a second time; it is taken to format to the same text again. *)
Definition ds_printf (d : ds) (s : list Z) : option ds :=
  let n := size s in
  let avail := d_space d - d_len d in
  let direct := PRINTF_BUF <=? avail in                                         (* 156-160 *)
  let bsiz := if direct then avail else PRINTF_BUF in
  let d1 := if direct
            then option_map (set_buffer d) (store (buffer d) (d_len d) (snprintf_cells avail s))
            else Some d in
  match d1 with
  | None => None
  | Some d1 =>
    if MAX_ALLOC <? n + d_len d then Some d1                                    (* 163-167 *)
    else if bsiz <=? n then                                                     (* 168-180 *)
      let m := d_len d + n + 1 in
      match ds_set_length d1 m with
      | None => None
      | Some (d2, r) =>
        if r <? m then Some d2
        else option_map (set_buffer d2) (store (buffer d2) (d_len d) (snprintf_cells (d_len d + 1) s))
      end
    else if direct then Some d1
    else ds_append d1 s                                                         (* 181-183 *)
  end.

(** Histories *)
Inductive dsop :=
| DAppend (s : list Z) | DSetLength (n : Z) | DSet (s : list Z) | DFree | DFreeDup | DPrintf (s : list Z).
Definition ds_step (d : ds) (o : dsop) : option ds :=
  match o with
  | DAppend s => ds_append d s
  | DSetLength n => option_map fst (ds_set_length d n)
  | DSet s => ds_set d s
  | DFree => ds_free d
  | DFreeDup => option_map fst (ds_free_dup d)
  | DPrintf s => ds_printf d s
  end.
Fixpoint ds_run (d : ds) (os : list dsop) : option ds :=
  match os with
  | [] => Some d
  | o :: r => match ds_step d o with Some d' => ds_run d' r | None => None end
  end.

(** Jsi_DSLength / Jsi_DSValue (48-57): the first len bytes of the value *)
Definition ds_length (d : ds) : Z := d_len d.
Definition ds_bytes (d : ds) : list cell := firstn (Z.to_nat (d_len d)) (buffer d).
Definition ds_terminated (d : ds) : Prop := nth_error (buffer d) (Z.to_nat (d_len d)) = Some (Some 0).
