(** Model of the lexer (src/jsiLexer.c), reading from a string (LT_STRING; jsiEval.c:38-39).
    Characters are bytes 1..255; 0 is what is read at the end.  In C they are signed: byte 255 is EOF (-1)
    and byte 128 is COMMENT (-128), jsiLexer.c:5.  Line and column counts (for messages) are left out. *)
From Coq Require Import ZArith List Bool.
Import ListNotations.
From Verif Require Import UtfModel CodecModel JsonModel MiscModel.
Local Open Scope Z_scope.

(** jsi_Lexer, jsiInt.h:804-819: the program text, the position, the characters put back (the last one first) *)
Record lexer := mkLex { src : list Z; cur : nat; unch : list Z; inStr : bool }.
Definition set_inStr (b : bool) (l : lexer) : lexer := mkLex (src l) (cur l) (unch l) b.

(** lexer_getchar, jsiLexer.c:17-21: take a character *)
Definition read1 (l : lexer) : Z * lexer :=
  match unch l with
  | c :: u => (c, mkLex (src l) (cur l) u (inStr l))
  | [] => let c := at_ (src l) (cur l) in
          (c, if c =? 0 then l else mkLex (src l) (S (cur l)) [] (inStr l))
  end.
(** The character that line 24 looks at *)
Definition beside (l : lexer) : Z :=
  match unch l with c :: _ => c | [] => at_ (src l) (cur l - 1) end.
(** lexer_getchar, jsiLexer.c:7-38.  [n] bounds the recursion of line 26, which takes another character each time. *)
Fixpoint getchar_n (n : nat) (l : lexer) : Z * lexer :=
  let '(c, l') := read1 l in
  if inStr l && (c =? 92) && (beside l' =? 10) then
    match n with O => (c, l') | S n => getchar_n n l' end
  else (c, l').
Definition getchar (l : lexer) : Z * lexer := getchar_n (S (S (length (unch l)))) l.

(** lexer_ungetc, jsiLexer.c:40-58.  The bound tested is sizeof(unch), 400, while unch has 100 elements (line
    55); None: a write outside of unch. *)
Definition ungetc (c : Z) (l : lexer) : option lexer :=
  if c =? 0 then Some l
  else if (length (unch l) =? 0)%nat && (0 <? Z.of_nat (cur l)) && (c =? at_ (src l) (cur l - 1)) then
    Some (mkLex (src l) (cur l - 1) [] (inStr l))
  else if Z.of_nat (length (unch l)) + 2 <? 400 then
    if Z.of_nat (length (unch l)) <? 100 then Some (mkLex (src l) (cur l) (c :: unch l) (inStr l)) else None
  else Some l.

(** ctype.h in the C locale *)
Definition isdigit (c : Z) : bool := (48 <=? c) && (c <=? 57).
Definition isalpha (c : Z) : bool := ((65 <=? c) && (c <=? 90)) || ((97 <=? c) && (c <=? 122)).
Definition isalnum (c : Z) : bool := isalpha c || isdigit c.
Definition toupper (c : Z) : Z := if (97 <=? c) && (c <=? 122) then c - 32 else c.
Definition is_ws (c : Z) : bool := (c =? 32) || (c =? 9) || (c =? 10) || (c =? 13).
Definition is_quote (c : Z) : bool := (c =? 34) || (c =? 39) || (c =? 96).
Definition word_start (c : Z) : bool := isalpha c || (c =? 95) || (c =? 36).
Definition word_char (c : Z) : bool := isalnum c || (c =? 95) || (c =? 36).

(** The words of keywords[] with a value other than 0, jsiLexer.c:66-113 *)
Definition keywords : list (list Z) :=
 [[105;102]; [101;108;115;101]; [102;111;114]; [105;110]; [119;104;105;108;101]; [100;111];
  [99;111;110;116;105;110;117;101]; [115;119;105;116;99;104]; [99;97;115;101]; [100;101;102;97;117;108;116];
  [98;114;101;97;107]; [102;117;110;99;116;105;111;110]; [114;101;116;117;114;110]; [118;97;114]; [108;101;116];
  [99;111;110;115;116]; [111;102]; [110;101;119]; [100;101;108;101;116;101]; [116;114;121]; [99;97;116;99;104];
  [116;104;114;111;119]; [102;105;110;97;108;108;121]; [119;105;116;104]; [117;110;100;101;102;105;110;101;100];
  [116;114;117;101]; [102;97;108;115;101]; [116;104;105;115]; [97;114;103;117;109;101;110;116;115];
  [118;111;105;100]; [116;121;112;101;111;102]; [105;110;115;116;97;110;99;101;111;102]; [115;116;114;105;110;103];
  [110;117;109;98;101;114]; [114;101;103;101;120;112]; [97;110;121]; [117;115;101;114;111;98;106];
  [105;116;101;114;111;98;106]; [111;98;106;101;99;116]; [98;111;111;108;101;97;110]; [97;114;114;97;121];
  [110;117;108;108]; [101;120;112;111;114;116]; [115;101;116]; [103;101;116]; [46;46;46];
  [100;101;98;117;103;103;101;114]].
Fixpoint eqb_text (a b : list Z) : bool :=
  match a, b with [], [] => true | x :: a, y :: b => (x =? y) && eqb_text a b | _, _ => false end.
(** jsi_iskey, jsiLexer.c:153-160 *)
Definition iskey (w : list Z) : bool := existsb (eqb_text w) keywords.

(** The names of signs[], jsiLexer.c:332-358, in that order *)
Definition signs : list (list Z) :=
 [[62;62;62;61]; [60;60;61]; [62;62;61]; [61;61;61]; [33;61;61]; [62;62;62]; [61;61]; [33;61]; [60;61]; [62;61];
  [43;43]; [45;45]; [38;38]; [124;124]; [43;61]; [45;61]; [42;61]; [47;61]; [37;61]; [38;61]; [124;61]; [94;61];
  [60;60]; [62;62]; [61;62]].
Fixpoint prefix (p s : list Z) : bool :=
  match p, s with [], _ => true | x :: p, y :: s => (x =? y) && prefix p s | _ :: _, [] => false end.

Section Lex.
(** A Jsi_Number, the conversion of an integer to it, strtod(3) (the value and the text after the number) and
    whether the regular expression compiles *)
Variable D : Type.
Variable of_ll : Z -> D.
Variable strtod : list Z -> D * list Z.
Variable re_ok : list Z -> bool.

(** What jsi_yylex returns.  TErr: 0 after an error message; TEnd: 0 at the end of the text; TBad: -1. *)
Inductive tok := TEnd | TErr | TBad | TComment | TNum (d : D) | TStr (s : list Z) | TKey (w : list Z) | TIdent (w : list Z)
  | TRegex (s : list Z) | TSign (s : list Z).

(** Number of characters that can still be read; loops need no more rounds than that, plus one *)
Definition left_ (l : lexer) : nat := length (unch l) + (length (src l) - cur l).

(** The escapes of one character of jsi_do_string, jsiLexer.c:192-197 and 219-228 (the default case also logs a
    message) *)
Definition escape1 (n : Z) : Z :=
  if n =? 98 then 8 else if n =? 102 then 12 else if n =? 110 then 10 else if n =? 114 then 13
  else if n =? 116 then 9 else if n =? 48 then 0 else n.
(** The loop of jsi_do_string, jsiLexer.c:173-237: the content or an error.  The buffer always has five bytes to
    spare at the head of the loop (174-183) and a round adds at most three, so that it is a list here.
    None: out of fuel (never happens). *)
Fixpoint string_loop (fuel : nat) (endc : Z) (l : lexer) (buf : list Z) : option (option (list Z) * lexer) :=
  match fuel with
  | O => None
  | S fuel =>
      let '(c, l) := getchar l in
      if (c =? 255) || (c =? 0) then Some (None, l)
      else if c =? 92 then
        let '(n, l) := getchar l in
        if (n =? 255) || (n =? 0) then Some (None, l)
        else if n =? 117 then
          let '(a1, l) := getchar l in let '(a2, l) := getchar l in
          let '(a3, l) := getchar l in let '(a4, l) := getchar l in
          match utf_decode4 [a1; a2; a3; a4] with
          | Some b => string_loop fuel endc l (buf ++ b)
          | None => Some (None, l)
          end
        else string_loop fuel endc l (buf ++ [escape1 n])
      else if c =? endc then Some (Some buf, l)
      else string_loop fuel endc l (buf ++ [c])
  end.
(** jsi_do_string, jsiLexer.c:162-258 *)
Definition do_string (l : lexer) : option (option (list Z) * lexer) :=
  let l := set_inStr true l in
  let '(c, l) := getchar l in
  match string_loop (S (left_ l)) c l [] with
  | Some (r, l) => Some (r, set_inStr false l)
  | None => None
  end.

(** The flags of a regular expression, jsiLexer.c:296-304; [room]: bytes left up to bsiz-5.  The text, and the
    character after it, which is put back. *)
Fixpoint flags_loop (fuel : nat) (room : Z) (l : lexer) (buf : list Z) : option (option (list Z) * lexer) :=
  match fuel with
  | O => None
  | S fuel =>
      if room <=? 0 then Some (None, l)
      else
        let '(c, l) := getchar l in
        if isalnum c then flags_loop fuel (room - 1) l (buf ++ [c])
        else match ungetc c l with Some l => Some (Some buf, l) | None => None end
  end.
(** jsi_do_regex, jsiLexer.c:260-317; [bsiz] is the size of the buffer.  A NUL after a backslash (the test of line
    286 is for c, which is the backslash) ends the text of the buffer, but the next character read is then the end. *)
Fixpoint regex_loop (fuel : nat) (bsiz : Z) (l : lexer) (buf : list Z) : option (option (list Z) * lexer) :=
  match fuel with
  | O => None
  | S fuel =>
      let bsiz := if bsiz - 5 <=? Z.of_nat (length buf) then bsiz + 8192 else bsiz in
      let '(c, l) := getchar l in
      if (c =? 255) || (c =? 0) then Some (None, l)
      else if c =? 92 then
        let '(n, l) := getchar l in
        if n =? 255 then Some (None, l)
        else regex_loop fuel bsiz l (buf ++ [c; n])
      else if c =? 47 then
        flags_loop (S (S (left_ l))) (bsiz - 5 - (Z.of_nat (length buf) + 1)) l (buf ++ [47])
      else regex_loop fuel bsiz l (buf ++ [c])
  end.
Definition do_regex (l : lexer) : option (option (list Z) * lexer) :=
  let '(c, l) := getchar l in regex_loop (S (left_ l)) 8192 l [c].

(** jsi_do_sign, jsiLexer.c:361-367: up to four characters, not a newline; the newline is not put back *)
Fixpoint sign_chars (n : nat) (l : lexer) : list Z * lexer :=
  match n with
  | O => ([], l)
  | S n => let '(c, l) := getchar l in
           if (c =? 0) || (c =? 10) then ([], l)
           else let '(b, l) := sign_chars n l in (c :: b, l)
  end.
(** Putting characters back, the last one first *)
Fixpoint unget_all (cs : list Z) (l : lexer) : option lexer :=
  match cs with [] => Some l | c :: r => match unget_all r l with Some l => ungetc c l | None => None end end.
(** jsi_do_sign, jsiLexer.c:320-388 *)
Definition do_sign (l : lexer) : option (tok * lexer) :=
  let '(buf, l) := sign_chars 4 l in
  match buf with
  | [] => Some (TEnd, l)
  | c :: r =>
      match find (fun s => prefix s buf) signs with
      | Some s => match unget_all (skipn (length s) buf) l with Some l => Some (TSign s, l) | None => None end
      | None => match unget_all r l with Some l => Some (TSign [c], l) | None => None end
      end
  end.

(** jsi_eat_comment, jsiLexer.c:399-411; true: its end was found *)
Fixpoint eat_comment (fuel : nat) (l : lexer) : option (bool * lexer) :=
  match fuel with
  | O => None
  | S fuel =>
      let '(c, l) := getchar l in
      if c =? 0 then Some (false, l)
      else if c =? 42 then
        let '(c, l) := getchar l in
        if c =? 47 then Some (true, l)
        else match ungetc c l with Some l => eat_comment fuel l | None => None end
      else eat_comment fuel l
  end.
(** jsiLexer.c:500 *)
Fixpoint eat_line (fuel : nat) (l : lexer) : option lexer :=
  match fuel with
  | O => None
  | S fuel => let '(d, l) := getchar l in
              if (d =? 13) || (d =? 10) || (d =? 0) then Some l else eat_line fuel l
  end.
(** jsiLexer.c:421 *)
Fixpoint skip_ws (fuel : nat) (l : lexer) : option (Z * lexer) :=
  match fuel with
  | O => None
  | S fuel => let '(c, l) := getchar l in if is_ws c then skip_ws fuel l else Some (c, l)
  end.
(** jsiLexer.c:483-488, up to 1020 characters; then the last character read is put back (489) *)
Fixpoint word_loop (fuel : nat) (l : lexer) (c : Z) (word : list Z) : option (list Z * lexer) :=
  match fuel with
  | O => None
  | S fuel =>
      if (1020 <=? length word)%nat then match ungetc c l with Some l => Some (word, l) | None => None end
      else let '(c, l) := getchar l in
           if word_char c then word_loop fuel l c (word ++ [c])
           else match ungetc c l with Some l => Some (word, l) | None => None end
  end.
(** jsiLexer.c:439-456: the word, whether it is hexadecimal, and the number of digits *)
Fixpoint num_loop (fuel : nat) (l : lexer) (word : list Z) (hex : bool) (digCnt : Z) (cpre : Z)
    : option (list Z * bool * Z * lexer) :=
  match fuel with
  | O => None
  | S fuel =>
      if (1020 <=? length word)%nat then Some (word, hex, digCnt, l)
      else
        let '(c, l) := getchar l in
        let isdig := isxdigit c in
        let digCnt := if isdig then digCnt + 1 else digCnt in
        if isdig || (c =? 46) || (toupper c =? 80) || (toupper c =? 69)
           || ((toupper c =? 88) && (length word =? 1)%nat && (at_ word 0 =? 48))
           || (((c =? 45) || (c =? 43)) && (toupper cpre =? 69))
        then num_loop fuel l (word ++ [c]) (hex || (toupper c =? 88)) digCnt c
        else match ungetc c l with Some l => Some (word, hex, digCnt, l) | None => None end
  end.
(** jsiLexer.c:459-464: the value and the text after the number; strtoll from MiscModel *)
Definition num_value (word : list Z) (hex : bool) (digCnt : Z) : D * list Z :=
  let ll base := (of_ll (strtoll base word), match strto base word with Some (_, _, r) => r | None => word end) in
  if (at_ word 0 =? 48) && isdigit (at_ word 1) && negb hex then ll 8
  else if (at_ word 0 =? 48) && (digCnt + (if hex then 1 else 0) =? Z.of_nat (length word)) then ll (if hex then 16 else 10)
  else strtod word.

(** jsiLexer.c:434-474; [word]: a point before the first digit c, if there is one *)
Definition number (word : list Z) (c : Z) (l : lexer) : option (tok * lexer) :=
  match num_loop (S (left_ l)) l (word ++ [c]) false 1 0 with
  | None => None
  | Some (word, hex, digCnt, l) =>
      let '(d, r) := num_value word hex digCnt in
      Some (match r with [] => TNum d | _ => TErr end, l)
  end.
(** Tokens after which a slash begins a regular expression, jsiLexer.c:507-509 *)
Definition before_regex (t : tok) : bool :=
  match t with
  | TEnd | TErr => true
  | TSign s => existsb (eqb_text s) [[61]; [40]; [58]; [63]; [44]; [91]; [123]]
  | _ => false
  end.
Definition sign_token (c : Z) (l : lexer) : option (tok * lexer) :=
  match ungetc c l with None => None | Some l => do_sign l end.

(** jsi_yylex, jsiLexer.c:413-532 *)
Definition yylex1 (last : tok) (l : lexer) : option (tok * lexer) :=
  match skip_ws (S (left_ l)) l with
  | None => None
  | Some (c, l) =>
      let dot := if c =? 46 then
                   let '(c2, l2) := getchar l in
                   if isdigit c2 then Some ([46], c2, l2)
                   else match ungetc c2 l2 with Some l => Some ([], c, l) | None => None end
                 else Some ([], c, l) in
      match dot with
      | None => None
      | Some (word, c, l) =>
          if isdigit c then number word c l
          else if is_quote c then
            match ungetc c l with
            | None => None
            | Some l => match do_string l with
                        | None => None
                        | Some (Some s, l) => Some (TStr s, l)
                        | Some (None, l) => Some (TErr, l)
                        end
            end
          else if word_start c then
            match ungetc c l with
            | None => None
            | Some l => match word_loop (S (left_ l)) l 0 [] with
                        | None => None
                        | Some (w, l) => Some (if iskey w then TKey w else TIdent w, l)
                        end
            end
          else if c =? 47 then
            let '(d, l) := getchar l in
            if d =? 47 then match eat_line (S (left_ l)) l with Some l => Some (TComment, l) | None => None end
            else if d =? 42 then match eat_comment (S (left_ l)) l with Some (_, l) => Some (TComment, l) | None => None end
            else match ungetc d l with
                 | None => None
                 | Some l =>
                     if before_regex last then
                       match ungetc c l with
                       | None => None
                       | Some l => match do_regex l with
                                   | None => None
                                   | Some (None, l) => Some (TErr, l)
                                   | Some (Some s, l) => Some (if re_ok s then TRegex s else TBad, l)
                                   end
                       end
                     else sign_token c l
                 end
          else sign_token c l
      end
  end.

(** yylex, jsiLexer.c:534-547: comments, and byte 128 as if it were one, are passed over *)
Definition is_comment (t : tok) : bool :=
  match t with TComment => true | TSign [c] => c =? 128 | _ => false end.
Fixpoint yylex (fuel : nat) (last : tok) (l : lexer) : option (tok * lexer) :=
  match fuel with
  | O => None
  | S fuel => match yylex1 last l with
              | None => None
              | Some (t, l) => if is_comment t then yylex fuel last l else Some (t, l)
              end
  end.
(** What the parser sees: a token that is not positive is the end of the input (bison: yychar <= YYEOF).  A
    character above 127 outside of strings and comments is a negative token. *)
Definition is_end (t : tok) : bool :=
  match t with TEnd | TErr | TBad => true | TSign [c] => 127 <? c | _ => false end.
Fixpoint lex_all (fuel : nat) (last : tok) (l : lexer) : option (list tok * tok) :=
  match fuel with
  | O => None
  | S fuel => match yylex (S (left_ l)) last l with
              | None => None
              | Some (t, l) => if is_end t then Some ([], t)
                               else match lex_all fuel t l with
                                    | Some (ts, e) => Some (t :: ts, e)
                                    | None => None
                                    end
              end
  end.
(** The tokens of a program (jsi_PstateSetString, jsiPstate.c:233-244, sets the lexer up; the last token is 0) and
    the token that ended it *)
Definition lex_text (s : list Z) : option (list tok * tok) := lex_all (S (length s)) TEnd (mkLex s 0 [] false).
End Lex.
