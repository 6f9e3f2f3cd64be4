(** * Model of the format command: Jsi_FormatString, jsiFormat.c 57-440

    The C buffers are modelled as far as their bounds go: [spec] (100 bytes) is the list of bytes
    stored in it, and the number buffer is its size.  A store outside a buffer is the outcome [FOver].

    Simplifications: the option noCheck is off; what snprintf prints for a number, the display form of
    a value and its JSON form are parameters ([fsys]); appending to the result string does not fail
    (DStringModel.v); isdigit of a character above 255 is false; snprintf with a width or precision above
    INT_MAX is not modelled otherwise than by its bounds. *)
From Coq Require Import ZArith List Bool.
Import ListNotations.
Require Import Verif.UtfModel.
Require Import Verif.MiscModel.
Local Open Scope Z_scope.

(* an argument: a string, a number, or another value *)
Inductive arg (N O : Type) := AStr (s : list Z) | ANum (n : N) | AOther (v : O).
Arguments AStr {N O}. Arguments ANum {N O}. Arguments AOther {N O}.

Record fsys := mkfsys {
  num : Type;
  other : Type;
  wide : num -> Z;                          (* the cast to long, Jsi_Wide: jsiUtils.c 2691, 2704 *)
  disp : arg num other -> list Z;           (* Jsi_ValueGetDString(interp, v, &sStr, 0) *)
  json : arg num other -> list Z;           (* Jsi_ValueGetDString(interp, v, &pStr, JSI_OUTPUT_JSON) *)
  printf : list Z -> num -> list Z          (* what snprintf prints for a directive, if there is room *)
}.

Inductive fres := FOk (out : list Z) | FErr | FOver | FFuel.

Section Fmt.
Context {FS : fsys}.
Notation A := (arg (num FS) (other FS)).

Definition zlen {X} (l : list X) : Z := Z.of_nat (length l).
(* conversion to int *)
Definition to_int (n : Z) : Z := (n + 2 ^ 31) mod 2 ^ 32 - 2 ^ 31.
(* conversion of an unsigned long to long *)
Definition to_long (n : Z) : Z := (n + 2 ^ 63) mod 2 ^ 64 - 2 ^ 63.

(* lines 135-148 *)
Definition is_flag (ch : Z) : bool :=
  (ch =? 45) || (ch =? 48) || (ch =? 32) || (ch =? 43) || (ch =? 35) || (ch =? 39).
(* lines 133-158: the flags; [sp]: what is in [spec].  None: spec too long.  The loop ends after at most
   90 flags, [n] = 91 rounds are enough. *)
Fixpoint flags (n : nat) (s sp : list Z) (minus : bool) (pad : Z) : option (list Z * bool * Z * list Z) :=
  let '(ch, step) := utf_to_unichar s in
  if is_flag ch then
    match n with
    | O => None
    | S n' =>
        let sp' := sp ++ [ch] in
        if 90 <? zlen sp' then None
        else flags n' (skipn step s) sp' (minus || (ch =? 45)) (if ch =? 48 then 48 else pad)
    end
  else Some (sp, minus, pad, s).

Definition isdigit (ch : Z) : bool := (48 <=? ch) && (ch <=? 57).
(* lines 166-167 and 201-202: strtoul; if it converts nothing the end pointer is the start *)
Definition strtoul (s : list Z) : Z * list Z :=
  let '(v, r) := strtoull 10 s in (to_long v, match r with Some r => r | None => s end).

(* lines 164-188 and 200-222: a number, or * and an argument.  [ch] is the character at [s].
   None: an error; otherwise the number, the rest of the text and of the arguments. *)
Definition number_or_star (s : list Z) (args : list A) : option (option Z * list Z * list A) :=
  let '(ch, step) := utf_to_unichar s in
  if isdigit ch then let '(v, r) := strtoul s in Some (Some v, r, args)
  else if ch =? 42 then
    match args with
    | a :: (_ :: _) as rest => match a with ANum n => Some (Some (wide FS n), skipn step s, tl args) | _ => None end
    | _ => None
    end
  else Some (None, s, args).
(* is the width or precision at [s] an argument? *)
Definition star (s : list Z) : bool := negb (isdigit (fst (utf_to_unichar s))) && (fst (utf_to_unichar s) =? 42).

(* lines 228-241 *)
Definition length_modifier (s : list Z) : list Z :=
  let '(ch, step) := utf_to_unichar s in
  if ch =? 104 then skipn step s
  else if ch =? 108 then
    let s1 := skipn step s in
    let '(ch1, step1) := utf_to_unichar s1 in
    if ch1 =? 108 then skipn step1 s1 else s1
  else s.

(* lines 279-286 (doprec): the precision counts bytes *)
Definition cut (prec : option Z) (t : list Z) : list Z :=
  match prec with
  | Some p => if p <? zlen t then firstn (Z.to_nat p) t else t
  | None => t
  end.

(* lines 397-411: padding on the left, the text, padding on the right; [chars] is formatted_chars *)
Definition padded (minus : bool) (pad width chars : Z) (t : list Z) : list Z :=
  let fill := repeat pad (Z.to_nat (width - chars)) in
  if minus then t ++ fill else fill ++ t.

(* lines 316-386: a number.  [sp]: the flags in [spec]; [size]: num_buffer_size.  The text printed and
   the new size of the buffer; None: a store outside of [spec] or the number buffer. *)
Definition number (sp : list Z) (width : Z) (prec : option Z) (dbl : bool) (ch : Z) (n : num FS) (size : Z)
  : option (list Z * Z) :=
  let sp1 := sp ++ (if width =? 0 then [] else print_d width) ++
             (match prec with Some p => 46 :: print_d p | None => [] end) ++
             (if dbl then [] else [108; 108]) ++ [ch] in
  if 100 <? zlen sp1 + 1 then None else
  let len0 := if dbl then 320 else 24 in
  let len1 := if len0 <? width then to_int width else len0 in
  let len2 := match prec with Some p => to_int (len1 + p) | None => len1 end in
  let cap := to_int (len2 + 1) in
  let size1 := if size <? cap then cap else size in
  let text := printf FS sp1 n in
  (* snprintf stores at most (size_t)cap bytes, the last one a NUL *)
  let stored := if cap <? 0 then text else firstn (Z.to_nat (cap - 1)) text in
  if size1 <? zlen stored + 1 then None else Some (stored, size1).

Definition is_double (ch : Z) : bool :=
  (ch =? 97) || (ch =? 65) || (ch =? 101) || (ch =? 69) || (ch =? 102) || (ch =? 103) || (ch =? 71).
Definition is_integer (ch : Z) : bool :=
  (ch =? 100) || (ch =? 117) || (ch =? 111) || (ch =? 120) || (ch =? 88).

(* lines 258-395: the text of a field, its length in characters, and the size of the number buffer *)
Inductive conv := CText (t : list Z) (chars : Z) (size : Z) | CErr | COver.
Definition convert (sp : list Z) (width : Z) (prec : option Z) (ch : Z) (v : A) (size : Z) : conv :=
  let str t := CText (cut prec t) (zlen (cut prec t)) size in
  if ch =? 0 then CErr
  else if ch =? 113 then (match v with AStr _ => str (disp FS v) | _ => str (json FS v) end)
  else if ch =? 83 then str (disp FS v)
  else if ch =? 115 then (match v with AStr s => str s | _ => CErr end)
  else if (ch =? 99) || (ch =? 67) then
    match v with
    | AStr [b] => CText [b] 1 size
    | ANum n =>
        if (wide FS n <? 0) || (255 <? wide FS n) then CErr
        else if ch =? 67 then CText (unichar_to_utf (wide FS n)) 1 size
        else CText [wide FS n] 1 size
    | _ => CErr
    end
  else if is_double ch || is_integer ch then
    if 100 <? zlen sp + zlen (if width =? 0 then [] else print_d width) +
              zlen (match prec with Some p => 46 :: print_d p | None => [] end) + 1 then COver else
    match v with
    | ANum n => match number sp width prec (is_double ch) ch n size with
                | Some (t, size') => CText t (zlen t) size'
                | None => COver
                end
    | _ => CErr
    end
  else if 100 <? zlen sp + 1 + 25 + 1 then COver        (* Jsi_Strcpy(p, ": unknown or invalid spec") *)
  else CErr.

(* lines 110-255: one directive, after its % *)
Inductive dres := DErr | DOver | DNext (t : list Z) (s : list Z) (args : list A) (size : Z).
Definition directive (s : list Z) (args : list A) (size : Z) : dres :=
  match args with
  | [] => DErr
  | _ =>
      match flags 91 s [37] false 32 with
      | None => DErr
      | Some (sp, minus, pad, s1) =>
          match number_or_star s1 args with
          | None => DErr
          | Some (w, s2, args2) =>
              let w0 := match w with Some w => w | None => 0 end in
              let neg := star s1 && (w0 <? 0) in
              let width := if neg then to_long (- w0) else w0 in
              let sp' := if neg && negb minus then sp ++ [45] else sp in
              let minus' := minus || neg in
              let '(ch3, step3) := utf_to_unichar s2 in
              let '(dot, s3) := if ch3 =? 46 then (true, skipn step3 s2) else (false, s2) in
              match number_or_star s3 args2 with
              | None => DErr
              | Some (p, s4, args4) =>
                  let p0 := match p with Some p => p | None => 0 end in
                  let p1 := if star s3 && (p0 <? 0) then 0 else p0 in
                  let prec := if dot then Some p1 else None in
                  let s5 := length_modifier s4 in
                  let '(ch, step) := utf_to_unichar s5 in
                  let ch := if ch =? 105 then 100 else ch in
                  match args4 with
                  | [] => DErr
                  | v :: rest =>
                      match convert sp' width prec ch v size with
                      | CErr => DErr
                      | COver => DOver
                      | CText t chars size' => DNext (padded minus' pad width chars t) (skipn step s5) rest size'
                      end
                  end
              end
          end
      end
  end.

(* lines 76-130, 412-419: the loop.  [lit]: the text from [span] on that has not been copied yet. *)
Fixpoint loop (n : nat) (s lit out : list Z) (args : list A) (size : Z) : fres :=
  match n with
  | O => FFuel
  | S n' =>
      match s with
      | [] => FOk (out ++ lit)
      | _ =>
          let '(ch, step) := utf_to_unichar s in
          let s1 := skipn step s in
          if negb (ch =? 37) then loop n' s1 (lit ++ firstn step s) out args size
          else
            let '(ch1, step1) := utf_to_unichar s1 in
            if ch1 =? 37 then loop n' (skipn step1 s1) (firstn step1 s1) (out ++ lit) args size
            else match directive s1 args size with
                 | DErr => FErr
                 | DOver => FOver
                 | DNext t s2 args2 size2 => loop n' s2 [] (out ++ lit ++ t) args2 size2
                 end
      end
  end.
Definition format (f : list Z) (args : list A) : fres := loop (S (length f)) f [] [] args 100.
End Fmt.
