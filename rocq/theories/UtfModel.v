(** Model of src/jsiUtf8.c (JSI__UTF8 on) and of the String commands that use it
    (src/jsiString.c, src/jsiChar.c, src/jsiEval.c).

    A C string is the list of its bytes (0..255) up to, and without, the terminating NUL;
    reading position i of it is [at_ s i], which is 0 at the terminator.  Reads one past the
    terminator never happen: every read of s[i+1] below is guarded by a test that s[i] is not 0. *)
From Coq Require Import ZArith List Bool.
Import ListNotations.
Local Open Scope Z_scope.

Definition at_ (s : list Z) (i : nat) : Z := nth i s 0.

(** Jsi_UniCharToUtf, jsiUtf8.c:11-33: the bytes written *)
Definition unichar_to_utf (uc : Z) : list Z :=
  if uc <=? 0x7f then [uc]
  else if uc <=? 0x7ff then
    [Z.lor 0xc0 (Z.shiftr (Z.land uc 0x7c0) 6); Z.lor 0x80 (Z.land uc 0x3f)]
  else if uc <=? 0xffff then
    [Z.lor 0xe0 (Z.shiftr (Z.land uc 0xf000) 12); Z.lor 0x80 (Z.shiftr (Z.land uc 0xfc0) 6);
     Z.lor 0x80 (Z.land uc 0x3f)]
  else
    [Z.lor 0xf0 (Z.shiftr (Z.land uc 0x1c0000) 18); Z.lor 0x80 (Z.shiftr (Z.land uc 0x3f000) 12);
     Z.lor 0x80 (Z.shiftr (Z.land uc 0xfc0) 6); Z.lor 0x80 (Z.land uc 0x3f)].

(** The test (c & 0xc0) == 0x80 *)
Definition is_cont (c : Z) : bool := Z.land c 0xc0 =? 0x80.

(** Jsi_NumUtfBytes, jsiUtf8.c:35-46; [-1] is the (unsigned) -1 of line 44 as its callers,
    which store it in an int, see it. *)
Definition num_utf_bytes (c : Z) : Z :=
  if Z.land c 0x80 =? 0 then 1
  else if Z.land c 0xe0 =? 0xc0 then 2
  else if Z.land c 0xf0 =? 0xe0 then 3
  else if Z.land c 0xf8 =? 0xf0 then 4
  else -1.

(** Jsi_NumUtfChars, jsiUtf8.c:48-72.  length < 0: up to the NUL (58-61); otherwise the first
    [length] bytes (64-69, s has at least that many). *)
Fixpoint count_starts (s : list Z) : Z :=
  match s with
  | [] => 0
  | c :: r => (if is_cont c then 0 else 1) + count_starts r
  end.
Definition num_utf_chars (s : list Z) (len : Z) : Z :=
  if len =? 0 then 0
  else if len <? 0 then count_starts s
  else count_starts (firstn (Z.to_nat len) s).

(** Jsi_UtfToUniChar, jsiUtf8.c:184-219: code point and byte length *)
Definition utf_to_unichar (s : list Z) : Z * nat :=
  let s0 := at_ s 0 in let s1 := at_ s 1 in let s2 := at_ s 2 in let s3 := at_ s 3 in
  if s0 <? 0xc0 then (s0, 1%nat)
  else if s0 <? 0xe0 then
    if is_cont s1 then (Z.lor (Z.shiftl (Z.ldiff s0 0xc0) 6) (Z.ldiff s1 0x80), 2%nat)
    else (s0, 1%nat)
  else if s0 <? 0xf0 then
    if is_cont s1 && is_cont s2
    then (Z.lor (Z.lor (Z.shiftl (Z.ldiff s0 0xe0) 12) (Z.shiftl (Z.ldiff s1 0x80) 6)) (Z.ldiff s2 0x80), 3%nat)
    else (s0, 1%nat)
  else if s0 <? 0xf8 then
    if is_cont s1 && is_cont s2 && is_cont s3
    then (Z.lor (Z.lor (Z.lor (Z.shiftl (Z.ldiff s0 0xf0) 18) (Z.shiftl (Z.ldiff s1 0x80) 12))
                       (Z.shiftl (Z.ldiff s2 0x80) 6)) (Z.ldiff s3 0x80), 4%nat)
    else (s0, 1%nat)
  else (s0, 1%nat).

(** One step of the loops at jsiUtf8.c:140-146 and 158-164 *)
Definition utf_step (s : list Z) : nat :=
  if negb (Z.land (at_ s 0) 0x80 =? 0) then snd (utf_to_unichar s) else 1%nat.

(** Jsi_UtfIndexToOffset, jsiUtf8.c:134-149, index >= 0 *)
Fixpoint index_to_offset (s : list Z) (index : nat) : nat :=
  match index with
  | O => O
  | S n => match s with
           | [] => O
           | _ => let k := utf_step s in (k + index_to_offset (skipn k s) n)%nat
           end
  end.

(** Jsi_UtfAtIndex, jsiUtf8.c:151-167, index >= 0: the rest of the string, or NULL *)
Fixpoint utf_at_index (s : list Z) (index : nat) : option (list Z) :=
  match index with
  | O => Some s
  | S n => match s with
           | [] => None
           | _ => utf_at_index (skipn (utf_step s) s) n
           end
  end.

(** Jsi_UtfGetIndex, jsiUtf8.c:74-92: the contents of cbuf *)
Definition utf_get_index (s : list Z) (index : nat) : list Z :=
  match utf_at_index s index with
  | None => []
  | Some bp =>
      let l := match bp with [] => 1 | c :: _ => num_utf_bytes c end in
      if l <? 0 then [] else firstn (Z.to_nat l) bp
  end.

(** [while (n < 0) n += len], for n < 0 (jsiUtf8.c:100, jsiChar.c:88): the first value that is
    not negative.  [None]: len = 0, the loop never ends. *)
Definition wrap_start (n len : Z) : option Z :=
  if 0 <=? n then Some n else if len <=? 0 then None else Some (n mod len).

(** Jsi_UtfSubstr, jsiUtf8.c:94-132, appending to an empty DString *)
Definition utf_substr (s : list Z) (bLen n len : Z) : option (list Z) :=
  if (n <? 0) && (num_utf_chars s (-1) <=? 0) then Some []
  else match wrap_start n (num_utf_chars s (-1)) with
  | None => None
  | Some n =>
      let m := index_to_offset s (Z.to_nat n) in
      let '(ustart, ulen) :=
        if len <? 0 then (Z.of_nat m, Z.of_nat (length (skipn m s)))
        else
          let e := Z.of_nat (index_to_offset (skipn m s) (Z.to_nat len)) in
          let l := num_utf_bytes (at_ s m) in
          let l := if l <? 0 then 1 else l in
          (Z.of_nat m, e + l - 1) in
      let ulen := if bLen - ustart <? ulen then bLen - ustart else ulen in
      Some (firstn (Z.to_nat ulen) (skipn (Z.to_nat ustart) s))
  end.

(** jsi_SubstrDup, jsiChar.c:79-105 (alen = strlen(a)) *)
Definition substr_dup (a : list Z) (start len : Z) : option (list Z) :=
  if len =? 0 then Some []
  else
    let alen := Z.of_nat (length a) in
    match wrap_start start alen with
    | None => None
    | Some start =>
        if alen <=? start then Some []
        else
          let maxcpy := alen - start in
          let maxcpy := if 0 <? len then (if maxcpy <? len then maxcpy else len) else maxcpy in
          if maxcpy <=? 0 then Some []
          else Some (firstn (Z.to_nat maxcpy) (skipn (Z.to_nat start) a))
    end.

(** ** The String commands; the string is NUL-free, so bLen = strlen. *)
(** Jsi_ValueStrlen, jsiValue.c:1777-1789: the length property *)
Definition str_length (s : list Z) : Z := num_utf_chars s (Z.of_nat (length s)).

(** StringCharAtCmd, jsiString.c:466-486 *)
Definition char_at (s : list Z) (pos : Z) : option (list Z) :=
  if (pos <? 0) || (num_utf_chars s (-1) <=? pos) then Some []
  else utf_substr s (Z.of_nat (length s)) pos 1.

(** StringCharCodeAtCmd, jsiString.c:300-335; [None] is NaN *)
Definition char_code_at (s : list Z) (pos : Z) : option Z :=
  if (0 <=? pos) && (pos <? num_utf_chars s (-1))
  then Some (fst (utf_to_unichar (skipn (index_to_offset s (Z.to_nat pos)) s)))
  else None.

(** Subscripting a string, s[n]: jsiEval.c:957-982; [None] is undefined *)
Definition str_subscript (s : list Z) (n : Z) : option (list Z) :=
  let bLen := Z.of_nat (length s) in
  let cLen := num_utf_chars s bLen in
  if (n <? 0) || (cLen <=? n) then None
  else if negb (cLen =? bLen) then Some (utf_get_index s (Z.to_nat n))
  else Some [at_ s (Z.to_nat n)].

(** StringSubstrCmd, jsiString.c:109-153; len omitted: [None] *)
Definition str_substr (s : list Z) (start : Z) (len : option Z) : option (list Z) :=
  let bLen := Z.of_nat (length s) in
  let sLen := num_utf_chars s (-1) in
  match len with
  | None => if sLen =? bLen then substr_dup s start (-1) else utf_substr s bLen start (-1)
  | Some ilen =>
      if ilen <=? 0 then Some []
      else if sLen =? bLen then substr_dup s start ilen
      else let ilen := if bLen - start <? ilen then bLen - start else ilen in
           utf_substr s bLen start ilen
  end.
