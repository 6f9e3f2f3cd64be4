(** Model of the searching, splitting, joining, trimming and case-changing String commands
    (src/jsiString.c), of the helpers in src/jsiChar.c and src/jsiUtils.c they call, and of
    Array.join.

    A C string is the list of its bytes (1..255) before the terminating NUL.  Positions are
    offsets in bytes.  Reading or writing outside a block is [Bad]. *)
From Coq Require Import ZArith List Bool.
Import ListNotations.
From Verif Require Import UtfModel.
From Verif Require ArrayModel JsonModel.
Local Open Scope Z_scope.

Inductive out (A : Type) := Done (a : A) | Fail | Bad.
Arguments Done {A}. Arguments Fail {A}. Arguments Bad {A}.

(** ** The C library *)
Fixpoint prefixb (p s : list Z) : bool :=
  match p, s with
  | [], _ => true
  | a :: p, b :: s => (a =? b) && prefixb p s
  | _, _ => false
  end.
(** strstr (Jsi_Strstr, jsiChar.c 52-54): the offset of the result, None for NULL *)
Fixpoint strstr (s sub : list Z) : option nat :=
  if prefixb sub s then Some O
  else match s with [] => None | _ :: r => option_map S (strstr r sub) end.
(** isspace, C locale; the argument is a (signed) char, and the bytes above 127 are not space *)
Definition isspace : Z -> bool := JsonModel.isspace.
Definition tolower (c : Z) : Z := if (65 <=? c) && (c <=? 90) then c + 32 else c.
Definition toupper (c : Z) : Z := if (97 <=? c) && (c <=? 122) then c - 32 else c.

(** The C string at an offset of a block; None: there is no NUL *)
Fixpoint c_string (b : list Z) : option (list Z) :=
  match b with
  | [] => None
  | c :: r => if c =? 0 then Some [] else option_map (cons c) (c_string r)
  end.
Definition string_at (b : list Z) (p : nat) : option (list Z) := c_string (skipn p b).
(** Write one byte *)
Fixpoint poke (b : list Z) (p : nat) (c : Z) : option (list Z) :=
  match b, p with
  | [], _ => None
  | _ :: r, O => Some (c :: r)
  | x :: r, S p => option_map (cons x) (poke r p c)
  end.

(** ** Splitting *)
(** How the next separator is found: its offset.  Jsi_SplitStr (jsiUtils.c 2319, 2336): strstr;
    SplitChar (2044-2049, 2069-2074): strchr, or the first white space if ch is 0 (the offset of
    the end then, which ends the loop: None here). *)
Fixpoint find_byte (f : Z -> bool) (s : list Z) : option nat :=
  match s with [] => None | c :: r => if f c then Some O else option_map S (find_byte f r) end.
Inductive finder := OnString (sep : list Z) | OnByte (c : Z) | OnSpace.
Definition find_sep (f : finder) (s : list Z) : option nat :=
  match f with
  | OnString sep => strstr s sep
  | OnByte c => find_byte (Z.eqb c) s
  | OnSpace => find_byte isspace s
  end.
Definition sep_len (f : finder) : nat := match f with OnString sep => length sep | _ => 1 end.

(** The counting loop, jsiUtils.c 2318-2324 (2043-2053): cnt - 1 *)
Fixpoint count_seps (fuel : nat) (f : finder) (cp : list Z) : option nat :=
  match fuel with
  | O => None
  | S fuel =>
    match cp with
    | [] => Some O
    | _ => match find_sep f cp with
           | None => Some O
           | Some k => match skipn k cp with
                       | [] => Some O
                       | ep => option_map S (count_seps fuel f (skipn (sep_len f) ep))
                       end
           end
    end
  end.
(** The splitting loop, jsiUtils.c 2335-2341 (2068-2079), in the copy [buf]; argv has room for
    [room] more entries *)
Fixpoint split_loop (fuel : nat) (f : finder) (buf : list Z) (cp room : nat) (argv : list nat)
  : out (list Z * list nat) :=
  match fuel with
  | O => Bad
  | S fuel =>
    match string_at buf cp with
    | None => Bad
    | Some [] => Done (buf, argv)
    | Some s =>
      match find_sep f s with
      | None => Done (buf, argv)
      | Some k =>
        match skipn k s with
        | [] => Done (buf, argv)
        | _ =>
          match poke buf (cp + k) 0, room with
          | Some buf, S room => split_loop fuel f buf (cp + k + sep_len f) room (argv ++ [cp + k + sep_len f]%nat)
          | _, _ => Bad
          end
        end
      end
    end
  end.
Fixpoint read_all (buf : list Z) (argv : list nat) : out (list (list Z)) :=
  match argv with
  | [] => Done []
  | p :: r => match string_at buf p, read_all buf r with Some s, Done l => Done (s :: l) | _, _ => Bad end
  end.
(** SplitChar, jsiUtils.c 2035-2079, and Jsi_SplitStr from 2317 on: the strings argv[0..cnt-1].
    argv has cnt+3 entries of which the splitting loop may fill 1..cnt-1 (entry cnt+1 and the
    following hold the copy).  An entry it does not fill would be garbage: Bad. *)
Definition split_with (f : finder) (s : list Z) : out (list (list Z)) :=
  match count_seps (S (length s)) f s with
  | None => Bad
  | Some n =>
    match split_loop (S (length s)) f (s ++ [0]) 0 n [O] with
    | Done (buf, argv) => if (length argv =? S n)%nat then read_all buf argv else Bad
    | Fail => Fail
    | Bad => Bad
    end
  end.
(** Jsi_SplitStr, jsiUtils.c 2307-2344: an empty separator means SplitChar with the character 0 *)
Definition split_str (s sep : list Z) : out (list (list Z)) :=
  match sep with [] => split_with OnSpace s | _ => split_with (OnString sep) s end.

(** The argument of split: omitted or not a string, null, or a string *)
Inductive split_arg := NoSep | NullSep | StrSep (sep : list Z).

Definition fits (M n : nat) : bool := match ArrayModel.sizer M ArrayModel.empty n with Some _ => true | None => false end.
(** StringSplitCmd, jsiString.c 56-107; M is interp->maxArrayList, Fail an error *)
Definition split_cmd (M : nat) (s : list Z) (a : split_arg) : out (list (list Z)) :=
  let finish l := if fits M (length l) then Done l else Fail in
  match a with
  | StrSep [] => finish (map (fun c => [c]) s)
  | StrSep sep => match split_str s sep with Done l => finish l | Fail => Fail | Bad => Bad end
  | NoSep => match split_str s [] with Done l => finish l | Fail => Fail | Bad => Bad end
  | NullSep =>
      match split_str s [] with
      | Done l => finish (filter (fun p => match p with [] => false | _ => true end) l)
      | Fail => Fail | Bad => Bad
      end
  end.

(** jsi_ArrayJoinCmd, jsiArray.c 78-109, the loop: the elements from index i on; None is a hole.
    Converting an element to a string is not modelled. *)
Fixpoint join_loop (jstr : list Z) (first : bool) (l : list (option (list Z))) : list Z :=
  match l with
  | [] => []
  | None :: l => join_loop jstr false l
  | Some s :: l =>
      (if negb first && negb (match jstr with [] => true | _ => false end) then jstr else [])
      ++ s ++ join_loop jstr false l
  end.
Definition join_cmd (l : list (option (list Z))) (jstr : list Z) : list Z := join_loop jstr true l.

(** ** Searching *)
(** Jsi_Strpos, jsiChar.c 151-162 (nocase = 0); start is not negative *)
Definition strpos (s : list Z) (start : Z) (pat : list Z) : Z :=
  if Z.of_nat (length s) <? start then -1
  else match strstr (skipn (Z.to_nat start) s) pat with
       | None => -1
       | Some k => start + Z.of_nat k
       end.
(** The loop of Jsi_Strrpos, jsiChar.c 171-174; [off] is str - sstr, [os] the last match *)
Fixpoint strrpos_loop (s pat : list Z) (off os : Z) : Z :=
  match s with
  | [] => os
  | _ :: r => match strstr s pat with
              | None => os
              | Some k => strrpos_loop r pat (off + 1) (off + Z.of_nat k)
              end
  end.
(** Jsi_Strrpos, jsiChar.c 164-178 *)
Definition strrpos (s : list Z) (start : Z) (pat : list Z) : Z :=
  if Z.of_nat (length s) <? start then -1
  else strrpos_loop (skipn (Z.to_nat start) s) pat start (-1).
(** StringIndexOfCmd 228-258, StringLastIndexOfCmd 488-516 of jsiString.c; the arguments have
    been converted to a string and an int *)
Definition index_of (s pat : list Z) (start : option Z) : Z :=
  let st := match start with None => 0 | Some i => if i <? 0 then 0 else i end in strpos s st pat.
Definition last_index_of (s pat : list Z) (start : option Z) : Z :=
  let st := match start with None => 0 | Some i => if i <? 0 then 0 else i end in strrpos s st pat.
(** Jsi_Strrstr, jsiChar.c 56-64: the offset of the last match.  With an empty pattern the loop
    steps past the NUL and reads there: Bad. *)
Fixpoint strrstr_loop (fuel : nat) (cp pat : list Z) (off : nat) (lcp : option nat) : out (option nat) :=
  match fuel with
  | O => Bad
  | S fuel =>
    match strstr cp pat with
    | None => Done lcp
    | Some k => match skipn k cp with
                | [] => Bad
                | _ :: r => strrstr_loop fuel r pat (S (off + k)) (Some (off + k)%nat)
                end
    end
  end.
Definition strrstr (s pat : list Z) : out (option nat) := strrstr_loop (S (length s)) s pat 0 None.

(** ** Trimming *)
(** The search of a byte in the trim set, jsiString.c 354-356, 364-366 *)
Definition in_bytes (t : list Z) (c : Z) : bool := existsb (Z.eqb c) t.
(** jsiString.c 353-359 *)
Fixpoint trim_left (t s : list Z) : list Z :=
  match s with [] => [] | c :: r => if in_bytes t c then trim_left t r else s end.
(** jsiString.c 361-368: vend+1, starting from n = bLen *)
Fixpoint trim_right_len (t s : list Z) (n : nat) : nat :=
  match n with
  | O => O
  | S m => if in_bytes t (at_ s m) then trim_right_len t s m else n
  end.
(** _StringTrimCmd, jsiString.c 338-373 *)
Definition trim_cmd (s : list Z) (tchars : option (list Z)) (ends : Z) : list Z :=
  let t := match tchars with None => [32; 9; 10; 13] | Some t => t end in
  let s := if Z.testbit ends 0 then trim_left t s else s in
  let n := if Z.testbit ends 1 then trim_right_len t s (length s) else length s in
  firstn n s.
(** trim, trimLeft, trimRight: jsiString.c 375-391 *)
Definition str_trim (s : list Z) (t : option (list Z)) := trim_cmd s t 3.
Definition str_trim_left (s : list Z) (t : option (list Z)) := trim_cmd s t 1.
Definition str_trim_right (s : list Z) (t : option (list Z)) := trim_cmd s t 2.
(** jsi_TrimStr, jsiUtils.c 661-668: the string at the result *)
Fixpoint skip_white (s : list Z) : list Z :=
  match s with [] => [] | c :: r => if isspace c then skip_white r else s end.
Fixpoint white_end (s : list Z) (n : nat) : nat :=
  match n with O => O | S m => if isspace (at_ s m) then white_end s m else n end.
Definition trim_str (s : list Z) : list Z := let s := skip_white s in firstn (white_end s (length s)) s.

(** ** Case *)
(** jsi_utf_tocase, jsiString.c 393-423; upper: 0 lower, 1 upper, 2 title *)
Fixpoint tocase_loop (fuel : nat) (cp : list Z) (m blen : Z) (upper : Z) : out (list Z) :=
  match fuel with
  | O => Bad
  | S fuel =>
    match cp with
    | [] => Done []
    | c :: r =>
      if blen <=? m then Done []
      else if 128 <=? c then
        let ch := fst (utf_to_unichar cp) in
        let u := unichar_to_utf ch in
        let n := Z.of_nat (length u) in
        if blen <=? m + n then Done []
        else match tocase_loop fuel (skipn (length u) cp) (m + n) blen (if upper =? 2 then 0 else upper) with
             | Done l => Done (u ++ l) | Fail => Fail | Bad => Bad end
      else
        match tocase_loop fuel r (m + 1) blen (if upper =? 2 then 0 else upper) with
        | Done l => Done ((if upper =? 0 then tolower c else toupper c) :: l) | Fail => Fail | Bad => Bad end
    end
  end.
Definition tocase (s : list Z) (upper : Z) : out (list Z) :=
  tocase_loop (S (length s)) s 0 (Z.of_nat (length s)) upper.
(** toLowerCase, toUpperCase, toTitle: jsiString.c 427-464 *)
Definition to_lower (s : list Z) := tocase s 0.
Definition to_upper (s : list Z) := tocase s 1.
Definition to_title (s : list Z) := tocase s 2.

(** ** concat and repeat *)
Definition MAX_ALLOC_BUF : Z := 100000000.
(** StringRepeatCmd, jsiString.c 202-226; the count has been converted to a number, of which the
    integer part is [n]; M is MAX_LOOP_COUNT *)
Fixpoint repeat_loop (cnt : nat) (v acc : list Z) : out (list Z) :=
  match cnt with
  | O => Done acc
  | S cnt => if MAX_ALLOC_BUF <=? Z.of_nat (length acc + length v) then Fail
             else repeat_loop cnt v (acc ++ v)
  end.
Definition repeat_cmd (M : Z) (s : list Z) (n : Z) : out (list Z) :=
  if (M <? n) || (n <? 0) || (Z.of_nat (length s) <=? 0) then Fail
  else repeat_loop (Z.to_nat n) s [].
(** StringConcatCmd, jsiString.c 518-547; None is an argument that is not a string *)
Fixpoint concat_loop (acc : list Z) (l : list (option (list Z))) : out (list Z) :=
  match l with
  | [] => Done acc
  | None :: _ => Fail
  | Some s :: l => if MAX_ALLOC_BUF <=? Z.of_nat (length acc + length s) then Fail
                   else concat_loop (acc ++ s) l
  end.
Definition concat_cmd (s : list Z) (l : list (option (list Z))) : out (list Z) := concat_loop s l.

(** ** String.map *)
(** strncmp(cp, p, slen) = 0, where slen is strlen(cp) *)
(** The inner loop, jsiString.c 612-632: the first pair whose key starts at p.  A hole in the
    array skips the pair; an empty key is an error, but only if the loop gets there. *)
Fixpoint map_find (pairs : list (option (list Z) * option (list Z))) (p : list Z) : out (option (list Z * list Z)) :=
  match pairs with
  | [] => Done None
  | (Some [], Some _) :: _ => Fail
  | (Some k, Some v) :: r => if prefixb k p then Done (Some (k, v)) else map_find r p
  | _ :: r => map_find r p
  end.
(** The outer loop, jsiString.c 611-634, on the bytes from p on; acc is dStr *)
Fixpoint map_loop (fuel : nat) (pairs : list (option (list Z) * option (list Z))) (p acc : list Z) : out (list Z) :=
  match fuel with
  | O => Bad
  | S fuel =>
    match p with
    | [] => Done acc
    | c :: r =>
      match map_find pairs p with
      | Fail => Fail | Bad => Bad
      | Done None => map_loop fuel pairs r (acc ++ [c])
      | Done (Some (k, v)) =>
          if MAX_ALLOC_BUF <=? Z.of_nat (length acc + length v + 1) then Fail
          else map_loop fuel pairs (skipn (length k) p) (acc ++ v)
      end
    end
  end.
(** StringMapCmd, jsiString.c 588-640 (nocase = false); an array of odd length is an error *)
Definition map_cmd (s : list Z) (pairs : list (option (list Z) * option (list Z))) : out (list Z) :=
  map_loop (S (length s)) pairs s [].

(** ** substring and slice *)
(** StringSubstringCmd, jsiString.c 155-199; the arguments are ints *)
Definition substring_cmd (s : list Z) (start : Z) (stop : option Z) : option (list Z) :=
  let bLen := Z.of_nat (length s) in
  let sLen := num_utf_chars s (-1) in
  match stop with
  | None => if sLen =? bLen then substr_dup s start (-1) else utf_substr s bLen start (-1)
  | Some e =>
      let e := if sLen <? e then sLen else e in
      if e <? start then Some []
      else if sLen =? bLen then substr_dup s start (e - start + 1)
      else utf_substr s bLen start (e - start + 1)
  end.
(** StringSliceCmd, jsiString.c 549-586 *)
Definition slice_cmd (s : list Z) (start : Z) (stop : option Z) : option (list Z) :=
  let len := Z.of_nat (length s) in
  let st := if start <? 0 then len + start else start in
  let st := if st <? 0 then 0 else st in
  let st := if len <=? st then len - 1 else st in
  let e := match stop with
           | None => len
           | Some e => let e := if e <? 0 then len + e else e in
                       let e := if len <=? e then len else e in
                       if e <? st then st else e
           end in
  utf_substr s len st e.
