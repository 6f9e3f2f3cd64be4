(** Model of the JSON tokenizer (src/jsmn.c), of JSON.parse (src/jsiJSON.c), of JSON.stringify
    (jsiValueGetString, src/jsiUtils.c) and of Jsi_JSONQuote.

    A C string is the list of its bytes without the terminating NUL, [at_ s i] is s[i], 0 at the end.
    Memory allocation does not fail (the NOMEM results are not modelled) and the doubling of the
    token array is invisible: the array is a list. *)
From Coq Require Import ZArith List Bool.
From Verif Require Import UtfModel CodecModel TreeModel.
From Verif Require NumModel.
Import ListNotations.
Local Open Scope Z_scope.

(** Jsi_JsonTypeEnum, jsi.h:1321-1327 *)
Inductive toktype := Prim | Obj | Arr | Str.
Definition toktype_eqb (a b : toktype) : bool :=
  match a, b with Prim, Prim | Obj, Obj | Arr, Arr | Str, Str => true | _, _ => false end.
(** Jsi_JsonTok: type, start, end (-1: not set), size, parent (-1: none) *)
Record tok := mkTok { tty : toktype; tst : Z; ten : Z; tsz : Z; tpar : Z }.
Inductive jerr := INVAL | PART.
(** Jsi_JsonParser together with the locals [index] and [token] of Jsi_JsonParse;
    None stands for -1 / NULL. *)
Record pst := mkP { pos : nat; toks : list tok; super : option nat; index : option nat; cur : option nat }.

(** Jsi_JsonParse_primitive, jsmn.c:68-107: the loop 74-87, on the text from [pos].
    [inl n]: label found after n characters. *)
Fixpoint prim_scan (strict : bool) (l : list Z) : nat + jerr :=
  match l with
  | [] => if strict then inr PART else inl 0%nat
  | c :: r =>
      if (negb strict && (c =? 58)) || (c =? 9) || (c =? 13) || (c =? 10) || (c =? 32) || (c =? 44) || (c =? 93) || (c =? 125)
      then inl 0%nat
      else if (schar c <? 32) || (127 <=? schar c) then inr INVAL
      else match prim_scan strict r with inl n => inl (S n) | e => e end
  end.

(** Jsi_JsonParse_string, jsmn.c:112-157: the loop 120-154, on the text after the opening quote.
    [inl n]: the closing quote is n characters further on. *)
Definition simple_escape (d : Z) : bool :=
  (d =? 34) || (d =? 47) || (d =? 92) || (d =? 98) || (d =? 102) || (d =? 114) || (d =? 110) || (d =? 116).
Fixpoint str_scan (l : list Z) : nat + jerr :=
  match l with
  | [] => inr PART
  | c :: r =>
      if c =? 34 then inl 0%nat
      else if c =? 92 then
        match r with
        | [] => inr INVAL                      (* js[pos] is the NUL: default, 147-149 *)
        | d :: r' =>
            if simple_escape d ||
               ((d =? 117) && isxdigit (at_ r' 0) && isxdigit (at_ r' 1) && isxdigit (at_ r' 2) && isxdigit (at_ r' 3))
            then match str_scan r' with inl n => inl (S (S n)) | e => e end
            else inr INVAL
        end
      else match str_scan r with inl n => inl (S n) | e => e end
  end.

Definition upd (l : list tok) (i : nat) (f : tok -> tok) : list tok :=
  match nth_error l i with
  | Some t => firstn i l ++ f t :: skipn (S i) l
  | None => l
  end.
Definition incr_size (t : tok) : tok := mkTok (tty t) (tst t) (ten t) (tsz t + 1) (tpar t).
Definition set_end (e : Z) (t : tok) : tok := mkTok (tty t) (tst t) e (tsz t) (tpar t).
(** [if (toksuper != -1) tokens[toksuper].size++] *)
Definition bump (s : option nat) (l : list tok) : list tok :=
  match s with Some i => upd l i incr_size | None => l end.
Definition par_of (s : option nat) : Z := match s with Some i => Z.of_nat i | None => -1 end.

(** the loops [for (i = n-1; i >= 0; i--) if (start != -1 && end == -1) break], jsmn.c:208-219, 223-229 *)
Definition is_open (t : tok) : bool := negb (tst t =? -1) && (ten t =? -1).
Fixpoint find_open (n : nat) (l : list tok) : option nat :=
  match n with
  | O => None
  | S i => match nth_error l i with
           | Some t => if is_open t then Some i else find_open i l
           | None => find_open i l
           end
  end.

Definition type_of (l : list tok) (o : option nat) : option toktype :=
  match o with Some i => option_map tty (nth_error l i) | None => None end.
Definition is_type (o : option toktype) (t : toktype) : bool :=
  match o with Some u => toktype_eqb u t | None => false end.

(** one round of the main loop of Jsi_JsonParse, jsmn.c:167-271, with c = js[pos] not NUL, ending
    with the pos++ of the loop *)
Definition step (strict : bool) (js : list Z) (s : pst) : pst + jerr * nat :=
  let c := at_ js (pos s) in
  let p1 := S (pos s) in
  if (c =? 123) || (c =? 91) then              (* 175-187 *)
    let i := length (toks s) in
    inl (mkP p1 (bump (super s) (toks s) ++
                 [mkTok (if c =? 123 then Obj else Arr) (Z.of_nat (pos s)) (-1) 0 (par_of (super s))])
             (Some i) (Some i) (Some i))
  else if (c =? 125) || (c =? 93) then         (* 188-231, JSMN_PARENT_LINKS not defined *)
    let ty := if c =? 125 then Obj else Arr in
    match find_open (length (toks s)) (toks s) with
    | None => inr (INVAL, pos s)
    | Some i =>
        if negb (is_type (type_of (toks s) (Some i)) ty) then inr (INVAL, pos s)
        else
          let ts := upd (toks s) i (set_end (Z.of_nat (pos s) + 1)) in
          match find_open (S i) ts with
          | Some j => inl (mkP p1 ts (Some j) (index s) (Some j))
          | None => inl (mkP p1 ts None (index s) (Some 0%nat))
          end
    end
  else if c =? 34 then                         (* 232-240 *)
    match str_scan (skipn p1 js) with
    | inr e => inr (e, pos s)
    | inl n =>
        let ts := toks s ++ [mkTok Str (Z.of_nat p1) (Z.of_nat (p1 + n)) 0 (par_of (super s))] in
        let ts := match super s with
                  | Some _ => bump (super s) ts
                  | None => if at_ js 0 =? 34 then bump (Some 0%nat) ts else ts
                  end in
        inl (mkP (S (p1 + n)) ts (super s) (index s) (match index s with Some i => Some i | None => cur s end))
    end
  else if (c =? 58) && match cur s with None => true | _ => false end then inr (INVAL, pos s)   (* 242-243 *)
  else if (c =? 58) && strict && negb (is_type (type_of (toks s) (cur s)) Obj)
          && negb (is_type (type_of (toks s) (super s)) Obj) then inr (INVAL, pos s)            (* 244-246 *)
  else if (c =? 58) || (c =? 44) then          (* 247-251 *)
    if negb strict || is_type (type_of (toks s) (cur s)) Arr then inl (mkP p1 (toks s) (super s) (index s) (cur s))
    else if negb (is_type (type_of (toks s) (cur s)) Obj) then inr (INVAL, pos s)
    else inl (mkP p1 (toks s) (super s) (index s) (cur s))
  else if (c =? 9) || (c =? 13) || (c =? 10) || (c =? 32) then
    inl (mkP p1 (toks s) (super s) (index s) (cur s))
  else                                          (* 256-268 *)
    let mtch := (c =? 45) || ((48 <=? c) && (c <=? 57)) || (c =? 116) || (c =? 102) || (c =? 110) in
    if strict && negb mtch then inr (INVAL, pos s)
    else match prim_scan strict (skipn (pos s) js) with
         | inr e => inr (e, pos s)
         | inl n =>
             let ts := toks s ++ [mkTok Prim (Z.of_nat (pos s)) (Z.of_nat (pos s + n)) 0 (par_of (super s))] in
             inl (mkP (pos s + n) (bump (super s) ts) (super s) (index s)
                      (match index s with Some i => Some i | None => cur s end))
         end.

(** Jsi_JsonParse, jsmn.c:162-280.  None: out of fuel (never happens, see JsonProps). *)
Fixpoint run (fuel : nat) (strict : bool) (js : list Z) (s : pst) : option (pst + jerr * nat) :=
  if at_ js (pos s) =? 0 then
    Some (match find_open (length (toks s)) (toks s) with Some _ => inr (PART, pos s) | None => inl s end)
  else match fuel with
       | O => None
       | S f => match step strict js s with
                | inl s' => run f strict js s'
                | inr e => Some (inr e)
                end
       end.
Definition pst0 : pst := mkP 0 [] None None None.
Definition json_parse (strict : bool) (js : list Z) : option (pst + jerr * nat) :=
  run (S (length js)) strict js pst0.

(** ** Unescaping *)
(** Jsi_UtfDecode, jsiUtf8.c:237-263, on the text after the u; None: returns 0 *)
Definition utf_decode4 (s : list Z) : option (list Z) :=
  if isxdigit (at_ s 0) && isxdigit (at_ s 1) && isxdigit (at_ s 2) && isxdigit (at_ s 3) then
    let uc := Z.shiftl (from_hex_char (at_ s 0)) 12 + Z.shiftl (from_hex_char (at_ s 1)) 8 +
              Z.shiftl (from_hex_char (at_ s 2)) 4 + from_hex_char (at_ s 3) in
    Some (if uc <? 0x80 then [uc]
          else if uc <? 0x800 then [Z.lor 0xc0 (Z.shiftr uc 6); Z.lor 0x80 (Z.land uc 0x3f)]
          else [Z.lor 0xe0 (Z.shiftr uc 12); Z.lor 0x80 (Z.land (Z.shiftr uc 6) 0x3f); Z.lor 0x80 (Z.land uc 0x3f)])
  else None.
(** Jsi_UtfEncode, jsiUtf8.c:222-234: the 6 characters and the number of bytes consumed *)
Definition utf_encode6 (s : list Z) : list Z * nat :=
  let '(ival, ilen) := utf_to_unichar s in
  ([92; 117; to_hex_char (Z.shiftr (Z.land ival 0xf000) 12); to_hex_char (Z.shiftr (Z.land ival 0xf00) 8);
    to_hex_char (Z.shiftr (Z.land ival 0xf0) 4); to_hex_char (Z.land ival 0x0f)], ilen).

(** jsonNewDString, jsiJSON.c:7-45.  [s] is the text from the token's start to the end of the whole
    input and [len] the token's length (an escape may look beyond the token); the 90-byte buffer is
    only a chunking of the output. *)
Fixpoint unescape (fuel : nat) (s : list Z) (len : Z) : list Z :=
  match fuel with
  | O => []
  | S f =>
      if len <=? 0 then []
      else if at_ s 0 =? 92 then
        let d := at_ s 1 in
        if d =? 98 then 8 :: unescape f (skipn 2 s) (len - 2)
        else if d =? 110 then 10 :: unescape f (skipn 2 s) (len - 2)
        else if d =? 114 then 13 :: unescape f (skipn 2 s) (len - 2)
        else if d =? 102 then 12 :: unescape f (skipn 2 s) (len - 2)
        else if d =? 116 then 9 :: unescape f (skipn 2 s) (len - 2)
        else if d =? 34 then 34 :: unescape f (skipn 2 s) (len - 2)
        else if d =? 92 then 92 :: unescape f (skipn 2 s) (len - 2)
        else if d =? 117 then
          match utf_decode4 (skipn 2 s) with
          | Some b => b ++ unescape f (skipn 6 s) (len - 6)
          | None => 92 :: 117 :: unescape f (skipn 2 s) (len - 2)
          end
        else unescape f (skipn 2 s) (len - 2)
      else at_ s 0 :: unescape f (skipn 1 s) (len - 1)
  end.

(** ** Values *)
(** Script values; numbers are doubles, an array is its list of elements (all set),
    an object the list of its (enumerable) fields in the order of its tree. *)
Inductive jval :=
| JUndef | JNull | JBool (b : bool) | JNum (x : NumModel.num) | JStr (s : list Z)
| JArr (l : list jval) | JObj (l : list (list Z * jval)).

(** Jsi_JsonGetTokstr, jsmn.c:334-342: the text from the token's start, and its length *)
Definition tokstr (js : list Z) (t : tok) : list Z * Z := (skipn (Z.to_nat (tst t)) js, ten t - tst t).

Definition s_null := [110; 117; 108; 108].
Definition s_true := [116; 114; 117; 101].
Definition s_false := [102; 97; 108; 115; 101].
Definition s_undefined := [117; 110; 100; 101; 102; 105; 110; 101; 100].
Fixpoint eqb_list (a b : list Z) : bool :=
  match a, b with
  | [], [] => true
  | x :: a, y :: b => (x =? y) && eqb_list a b
  | _, _ => false
  end.

(** The fields of an object are kept by the tree (TreeModel.v: a map ordered by the key
    comparison; TreeProps.v proves insertion adds or replaces one key).  Here: the ordered
    association list, with the comparison that object trees use. *)
Fixpoint field_set (cmp : list Z -> list Z -> Z) (k : list Z) (v : jval) (l : list (list Z * jval)) :=
  match l with
  | [] => [(k, v)]
  | (k', v') :: r =>
      if cmp k k' <? 0 then (k, v) :: l
      else if cmp k k' =? 0 then (k, v) :: r
      else (k', v') :: field_set cmp k v r
  end.

(** Size given to the element array, Jsi_ObjArraySizer, jsiObj.c:449-468 with ALLOC_MOD_SIZE 16;
    None: too big. *)
Definition array_sizer (maxArrayList len : nat) : option nat :=
  let nsiz := (len + 1 + (15 - (len + 1 + 15) mod 16))%nat in
  if Nat.leb maxArrayList len || Nat.ltb maxArrayList nsiz then None else Some nsiz.

(** jsonGen1Value, jsonGenObject, jsonGenArray (jsiJSON.c:62-168).  The result is the value and the
    index of the last token used (endPos after the i--, i.e. endPos of the container functions
    minus 1).  A number is read with strtod from the start of its token; the warning about a number that
    goes on beyond the token is left out.  None: outside the model (a hexadecimal number, inf or nan, an
    uninitialised token, or fuel exhausted). *)
Fixpoint gen (fuel : nat) (maxArr : nat) (js : list Z) (ts : list tok) (i : nat) : option (jval * nat) :=
  match fuel with
  | O => None
  | S f =>
      match nth_error ts i with
      | None => None
      | Some t =>
          match tty t with
          | Prim =>                                     (* 70-93 *)
              let s := firstn (Z.to_nat (snd (tokstr js t))) (fst (tokstr js t)) in
              if eqb_list s s_null then Some (JNull, i)
              else if eqb_list s s_true then Some (JBool true, i)
              else if eqb_list s s_false then Some (JBool false, i)
              else if eqb_list s s_undefined then Some (JNull, i)
              else match NumModel.strtod (fst (tokstr js t)) with Some (x, _) => Some (JNum x, i) | None => None end
          | Str =>                                      (* 94-97, 47-57 *)
              let '(s, len) := tokstr js t in Some (JStr (unescape (S (Z.to_nat len)) s len), i)
          | Arr =>                                      (* 144-168 *)
              (fix elems g (i : nat) (n m : nat) (acc : list jval) {struct g} :=
                 match g with
                 | O => None
                 | S g =>
                     if Nat.ltb i (length ts) && (Z.of_nat n <? tsz t) then
                       match (if Nat.leb m n then array_sizer maxArr (n + 1) else Some m) with
                       | None => Some (JArr (rev acc), (i - 1)%nat)
                       | Some m =>
                           match gen f maxArr js ts i with
                           | None => None
                           | Some (v, i) => elems g (S i) (S n) m (v :: acc)
                           end
                       end
                     else Some (JArr (rev acc), (i - 1)%nat)
                 end) (S (length ts)) (S i) 0%nat 0%nat []
          | Obj =>                                      (* 115-142 *)
              (fix fields g (i : nat) (n : nat) (acc : list (list Z * jval)) {struct g} :=
                 match g with
                 | O => None
                 | S g =>
                     if Nat.ltb i (length ts) && (Z.of_nat n <? tsz t) then
                       match nth_error ts i with
                       | None => None
                       | Some kt =>
                           let key := firstn (Z.to_nat (snd (tokstr js kt))) (fst (tokstr js kt)) in
                           if tsz t <=? Z.of_nat (S n) then
                             fields g (S (S i)) (S (S n)) (field_set strcmp key JUndef acc)
                           else
                             match gen f maxArr js ts (S i) with
                             | None => None
                             | Some (v, i) => fields g (S i) (S (S n)) (field_set strcmp key v acc)
                             end
                       end
                     else Some (JObj acc, (i - 1)%nat)
                 end) (S (length ts)) (S i) 0%nat []
          end
      end
  end.

(** isspace in the C locale *)
Definition isspace (c : Z) : bool := (c =? 32) || ((9 <=? c) && (c <=? 13)).
Fixpoint skip_space (s : list Z) : list Z :=
  match s with c :: r => if isspace c then skip_space r else s | [] => [] end.

(** Jsi_GetDouble and JsiCheckConversion, jsiUtils.c:2346-2361, 2478-2488: None in the inner option is an
    error, in the outer one it is outside the model. *)
Definition get_double (s : list Z) : option (option NumModel.num) :=
  match NumModel.strtod s with
  | None => None
  | Some (x, r) =>
      Some (if Nat.eqb (length s) 0 || Nat.eqb (length r) (length s) then None
            else match skip_space r with [] => Some x | _ => None end)
  end.
Inductive jres := RValue (v : jval) | RNothing | RError (e : jerr) (at_ofs : nat).
(** Jsi_JSONParse, jsiJSON.c:170-235 (with a result requested).  RNothing: JSI_OK without a value
    (blank input); None: outside the model. *)
Definition json_parse_value (maxArr : nat) (strict : bool) (js0 : list Z) : option jres :=
  let js := skip_space js0 in
  match js with
  | [] => Some RNothing
  | _ =>
      if eqb_list js s_true then Some (RValue (JBool true))
      else if eqb_list js s_false then Some (RValue (JBool false))
      else if eqb_list js s_null then Some (RValue JNull)
      else match (if isdigit (at_ js 0) || (at_ js 0 =? 45) then get_double js else Some None) with
      | None => None
      | Some (Some x) => Some (RValue (JNum x))
      | Some None =>
          match json_parse strict js with
          | None => None
          | Some (inr (e, p)) => Some (RError e p)
          | Some (inl st) =>
              match nth_error (toks st) 0 with
              | None => None
              | Some t =>
                  if tsz t <=? 0 then
                    Some (RValue (match tty t with Obj => JObj [] | Arr => JArr [] | _ => JUndef end))
                  else option_map (fun r => RValue (fst r)) (gen (S (length (toks st))) maxArr js (toks st) 0)
              end
          end
      end
  end.

(** ** Output *)
(** isprint in the C locale, on a (signed) char *)
Definition isprint (c : Z) : bool := (32 <=? c) && (c <? 127).

(** The string case of jsiValueGetString, jsiUtils.c:783-813 with quote = JSI_OUTPUT_JSON; fuel
    bounds the length. *)
Definition json_special (c : Z) : option Z :=
  if (c =? 92) || (c =? 34) then Some c
  else if c =? 10 then Some 110 else if c =? 13 then Some 114 else if c =? 9 then Some 116
  else if c =? 12 then Some 102 else if c =? 8 then Some 98 else None.
Fixpoint escape (fuel : nat) (s : list Z) : list Z :=
  match fuel with
  | O => []
  | S f =>
      match s with
      | [] => []
      | c :: r =>
          match json_special c with
          | Some d => 92 :: d :: escape f r
          | None =>
              if isprint c then c :: escape f r
              else let '(u, l) := utf_encode6 s in u ++ escape f (skipn l s)
          end
      end
  end.
Definition json_string (s : list Z) : list Z := 34 :: escape (length s) s ++ [34].

(** Jsi_JSONQuote, jsiJSON.c:402-441, len < 0 or the length of the string.  Differs from the above
    only in the order of the tests. *)
Fixpoint quote_body (fuel : nat) (s : list Z) : list Z :=
  match fuel with
  | O => []
  | S f =>
      match s with
      | [] => []
      | c :: r =>
          if (c =? 92) || (c =? 34) then 92 :: c :: quote_body f r
          else if negb (isprint c) then
            (if c =? 8 then 92 :: 98 :: quote_body f r
             else if c =? 10 then 92 :: 110 :: quote_body f r
             else if c =? 13 then 92 :: 114 :: quote_body f r
             else if c =? 12 then 92 :: 102 :: quote_body f r
             else if c =? 9 then 92 :: 116 :: quote_body f r
             else let '(u, l) := utf_encode6 s in u ++ quote_body f (skipn l s))
          else c :: quote_body f r
      end
  end.
Definition json_quote (s : list Z) : list Z := 34 :: quote_body (length s) s ++ [34].

(** jsiValueGetString, jsiUtils.c:727-905 and jsi_ObjectGetFmt, 682-702, called from
    JSON.stringify(v) (JSONStringifyCmd, jsiJSON.c:443-472: strict, no formatting).
    dblPrec is the option for the precision of numbers.  maxDepth = 0: no limit.  None: "recursive ToString". *)
Fixpoint stringify (dblPrec maxDepth depth : Z) (v : jval) : option (list Z) :=
  if (0 <? maxDepth) && (maxDepth <? depth) then None
  else match v with
  | JUndef => Some s_undefined
  | JNull => Some s_null
  | JBool true => Some s_true
  | JBool false => Some s_false
  | JNum x => Some (NumModel.num_to_json dblPrec x)
  | JStr s => Some (json_string s)
  | JArr [] => Some [91; 93]
  | JArr l =>
      option_map (fun b => 91 :: 32 :: b ++ [32; 93])
        ((fix elems (first : bool) (l : list jval) :=
            match l with
            | [] => Some []
            | v :: r =>
                match stringify dblPrec maxDepth (depth + 1) v with
                | None => None
                | Some t => option_map (fun b => (if first then [] else [44; 32]) ++ t ++ b) (elems false r)
                end
            end) true l)
  | JObj [] => Some [123; 125]
  | JObj l =>
      option_map (fun b => 123 :: 32 :: b ++ [32; 125])
        ((fix fields (subcnt : Z) (l : list (list Z * jval)) :=
            match l with
            | [] => Some []
            | (k, v) :: r =>
                match v with
                | JUndef => fields (subcnt + 1) r            (* 687-689 *)
                | _ =>
                    match stringify dblPrec maxDepth (depth + 1) v with
                    | None => None
                    | Some t =>
                        option_map (fun b => (if 1 <? subcnt + 1 then [44; 32] else []) ++ 34 :: k ++ 34 :: 58 :: t ++ b)
                          (fields (subcnt + 1) r)
                    end
                end
            end) 0 l)
  end.
