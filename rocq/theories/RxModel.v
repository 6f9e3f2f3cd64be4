(** * Model of String.replace, String.match, String.search, RegExp.exec and RegExp.test
    jsiString.c 258-275, 644-952, jsiRegexp.c 36-345.
    What the regular expression library finds is a parameter ([regexec]); so is what a replacement function
    returns.

    Simplifications: strings handed to the library end at their first NUL byte, as C strings do ([cstr]);
    allocation and the limit on array sizes are left out; the check against 10000000 matches (which the length of
    the source bounds) is left out; re->pattern is the whole text with its slashes (line 105), so that
    the tests of its first character for ^ and the end (lines 843-854) never hold and are left out. *)
From Coq Require Import ZArith List Bool.
Import ListNotations.
Require Import Verif.StrModel.
Local Open Scope Z_scope.

(* regexec: the positions rm_so, rm_eo of the whole match and the groups *)
Inductive found := NoMatch | Bad | Match (pos : nat -> Z * Z).
(* the flag REG_NOTBOL, the text *)
Definition engine := bool -> list Z -> found.
Definition MAX_SUBREGEX : nat := 256.

Definition so (pos : nat -> Z * Z) (i : nat) : Z := fst (pos i).
Definition eo (pos : nat -> Z * Z) (i : nat) : Z := snd (pos i).
Fixpoint cstr (s : list Z) : list Z := match s with [] => [] | c :: r => if c =? 0 then [] else c :: cstr r end.
(* [n] bytes from [from] on, as Jsi_DSAppendLen takes them; None: outside of the string *)
Definition bytes_at (p : list Z) (from n : Z) : option (list Z) :=
  if (from <? 0) || (Z.of_nat (length p) <? from) then None
  else if n <? 0 then Some (cstr (skipn (Z.to_nat from) p))
  else if Z.of_nat (length p) <? from + n then None
  else Some (firstn (Z.to_nat n) (skipn (Z.to_nat from) p)).
(* jsi_SubstrDup with alen < 0 and start >= 0: jsiChar.c 79-107 *)
Definition substr_dup (p : list Z) (start len : Z) : list Z :=
  if len =? 0 then []
  else let a := cstr p in
       if Z.of_nat (length a) <=? start then []
       else let maxcpy := Z.of_nat (length a) - start in
            let maxcpy := if 0 <? len then Z.min maxcpy len else maxcpy in
            firstn (Z.to_nat maxcpy) (skipn (Z.to_nat start) a).

(* jsiString.c 757-793: the replacement string at a match *)
Fixpoint expand (p : list Z) (pos : nat -> Z * Z) (r : list Z) : option (list Z) :=
  let group (idx : nat) (k : option (list Z)) :=
    if negb (so pos idx =? -1) && negb (eo pos idx =? -1) then
      match bytes_at p (so pos idx) (eo pos idx - so pos idx), k with Some a, Some b => Some (a ++ b) | _, _ => None end
    else k in
  match r with
  | [] => Some []
  | c :: r1 =>
      if c =? 36 then
        match r1 with
        | [] => Some [36; 0]                        (* c is the NUL at the end *)
        | d :: r2 =>
            if (48 <=? d) && (d <=? 57) then group (Z.to_nat (d - 48)) (expand p pos r2)
            else if d =? 38 then group 0%nat (expand p pos r2)
            else if d =? 36 then option_map (cons 36) (expand p pos r2)
            else if d =? 39 then
              match bytes_at p (eo pos 0) (eo pos 0 - Z.of_nat (length (cstr p))), expand p pos r2 with
              | Some a, Some b => Some (a ++ b) | _, _ => None end
            else if d =? 96 then
              match bytes_at p 0 (so pos 0), expand p pos r2 with Some a, Some b => Some (a ++ b) | _, _ => None end
            else option_map (fun t => 36 :: d :: t) (expand p pos r2)
        end
      else option_map (cons c) (expand p pos r1)
  end.

Section Replace.
Context {St : Type}.
(* the match, the groups (None: null), the offset; the callback may fail *)
Definition callback := St -> list Z -> list (option (list Z)) -> Z -> St * option (list Z).
Inductive replacement := RText (r : list Z) | RFun (f : callback).
Inductive rout := ROk (out : list Z) | RErr | ROut | RFuel.

(* lines 812-820: the groups handed to the function *)
Definition groups (p : list Z) (pos : nat -> Z * Z) (nsub : nat) : list (option (list Z)) :=
  map (fun i => if so pos i <? 0 then None else Some (substr_dup p (so pos i) (eo pos i - so pos i)))
      (seq 1 (Nat.min nsub (MAX_SUBREGEX - 4))).

(* lines 732-861; [p]: the text that is left, [n] its length, [off]: eoffset *)
Fixpoint replace_loop (fuel : nat) (rx : engine) (nsub : nat) (glob : bool) (rep : replacement)
  (st : St) (nb : bool) (p : list Z) (n off : Z) (acc : list Z) : St * rout :=
  match fuel with
  | O => (st, RFuel)
  | S fuel' =>
      match rx nb (cstr p) with
      | Bad => (st, RErr)
      | NoMatch => (st, ROk (acc ++ cstr p))
      | Match pos =>
          match bytes_at p 0 (so pos 0) with
          | None => (st, ROut)
          | Some u =>
              let next st' t :=
                let p' := skipn (Z.to_nat (eo pos 0)) p in
                let n' := n - eo pos 0 in
                let acc' := acc ++ u ++ t in
                if Z.of_nat (length p) <? eo pos 0 then (st', ROut)
                else if negb glob || (n' =? 0) || (eo pos 0 =? 0) then (st', ROk (acc' ++ cstr p'))
                else replace_loop fuel' rx nsub glob rep st' true p' n' (off + eo pos 0) acc' in
              match rep with
              | RText r =>
                  if existsb (Z.eqb 36) r then match expand p pos r with Some t => next st t | None => (st, ROut) end
                  else next st (cstr r)
              | RFun f =>
                  if (so pos 0 <=? 0) && (eo pos 0 <=? 0) then (st, ROk (acc ++ u ++ cstr p))
                  else
                    match f st (substr_dup p (so pos 0) (eo pos 0 - so pos 0)) (groups p pos nsub) (off + so pos 0) with
                    | (st', Some t) => next st' (cstr t)
                    | (st', None) => (st', RErr)
                    end
              end
          end
      end
  end.
Definition replace (rx : engine) (nsub : nat) (glob : bool) (rep : replacement) (st : St) (s : list Z) : St * rout :=
  replace_loop (S (length s)) rx nsub glob rep st false s (Z.of_nat (length s)) 0 [].
(* lines 674-716: the pattern is a string.  The function is called with the whole source *)
Definition replace_string (pat : list Z) (rep : replacement) (st : St) (s : list Z) : St * rout :=
  match strstr (cstr s) (cstr pat) with
  | None => (st, ROk (cstr s))
  | Some i =>
      let fin st' t := (st', ROk (firstn i s ++ t ++ cstr (skipn (i + length (cstr pat)) (cstr s)))) in
      match rep with
      | RText r => fin st r
      | RFun f => match f st (cstr s) [] 0 with (st', Some t) => fin st' t | (st', None) => (st', RErr) end
      end
  end.
End Replace.
Arguments replacement : clear implicits.
Arguments callback : clear implicits.

(** ** jsi_RegExpMatches, jsiRegexp.c 216-288 *)
Inductive mres := MNull | MArray (l : list (list Z)) (ofs : Z) | MErr | MOut | MFuel.
(* lines 256-271: the groups of one match, from [i] on; [k] groups are left.  [once]: match && isglob *)
Fixpoint push_groups (k i : nat) (p : list Z) (pos : nat -> Z * Z) (once : bool) (acc : list (list Z)) (ofs : Z)
  : list (list Z) * Z :=
  match k with
  | O => (acc, ofs)
  | S k' =>
      if (so pos i <=? 0) && (eo pos i <=? 0) then (acc, ofs)
      else if negb (i =? 0)%nat && (so pos i =? so pos (i - 1)) && (eo pos i =? eo pos (i - 1))
      then push_groups k' (S i) p pos once acc ofs
      else
        let acc' := acc ++ [substr_dup p (so pos i) (eo pos i - so pos i)] in
        if once then (acc', eo pos i) else push_groups k' (S i) p pos once acc' (eo pos i)
  end.
(* [hasofs]: ofs is not NULL *)
Fixpoint matches_loop (fuel : nat) (rx : engine) (glob match_ hasofs : bool) (nb : bool) (p : list Z) (n : Z)
  (acc : list (list Z)) (ofs : Z) : mres :=
  match fuel with
  | O => MFuel
  | S fuel' =>
      match rx nb (cstr p) with
      | Bad => MErr
      | NoMatch => if (length acc =? 0)%nat then MNull else MArray acc ofs
      | Match pos =>
          let '(acc', ofs') := push_groups MAX_SUBREGEX 0 p pos (match_ && glob) acc ofs in
          if negb (length acc' =? 0)%nat && match_ && negb glob then MArray acc' ofs'
          else if (length acc' =? 1)%nat && (hasofs || negb glob) then MArray acc' ofs'
          else if Z.of_nat (length p) <? eo pos 0 then MOut
          else
            let p' := skipn (Z.to_nat (eo pos 0)) p in
            let n' := n - eo pos 0 in
            if negb (n' =? 0) && (0 <? eo pos 0) then matches_loop fuel' rx glob match_ hasofs true p' n' acc' ofs'
            else MArray acc' ofs'
      end
  end.
(* StringMatchCmd, jsiString.c 258-275 *)
Definition match_cmd (rx : engine) (glob : bool) (s : list Z) : mres :=
  matches_loop (S (length s)) rx glob true false false s (Z.of_nat (length s)) [] 0.
(* StringSearchCmd, jsiString.c 887-950: None is an error *)
Definition search_cmd (rx : engine) (s : list Z) : option Z :=
  match rx false (cstr s) with NoMatch => Some (-1) | Bad => None | Match pos => Some (so pos 0) end.
(* RegexpTestCmd, jsiRegexp.c 341-354 *)
Definition test_cmd (rx : engine) (s : list Z) : option bool :=
  match rx false (cstr s) with NoMatch => Some false | Bad => None | Match _ => Some true end.

(** ** RegexpExecCmd, jsiRegexp.c 298-339.  [shared]: re->lastIndex, of the compiled expression, which all
    RegExp objects with the same text share (the table regexpTbl, lines 52-58); [own]: the property lastIndex of
    the object.  The results and the new values. *)
Inductive eres := ENull | EArray (l : list (list Z)) | EErr | EOut | EFuel.
Definition exec_cmd (rx : engine) (glob : bool) (shared : Z) (own : option Z) (s : list Z) : eres * Z * option Z :=
  let last := if glob then match own with Some l => l | None => shared end else shared in
  let start := if last <? Z.of_nat (length s) then (if last <? 0 then None else Some (skipn (Z.to_nat last) s)) else Some [] in
  match start with
  | None => (EOut, last, own)
  | Some p =>
      let fin r ofs (null : bool) :=
        if glob then let l := if null then 0 else last + ofs in (r, l, Some l) else (r, last, own) in
      match matches_loop (S (length p)) rx glob false glob false p (-1) [] 0 with
      | MErr => (EErr, last, own)
      | MOut => (EOut, last, own)
      | MFuel => (EFuel, last, own)
      | MNull => fin ENull 0 true
      | MArray l ofs => fin (EArray l) ofs false
      end
  end.
