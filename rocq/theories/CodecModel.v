(** Model of the byte codecs of src/jsiCmds.c and src/jsiUtils.c: base64, URI escaping, hex, CRC-32.

    A buffer is the list of its bytes (0..255) without the terminating NUL that every string
    value of the interpreter carries; [at_ s i] is 0 at that NUL. *)
From Coq Require Import ZArith List Bool.
Import ListNotations.
From Verif Require Import UtfModel.
Local Open Scope Z_scope.

(** A byte seen as a (signed) C char. *)
Definition schar (b : Z) : Z := if b <? 128 then b else b - 256.
(** Storing an int into a char: the byte that results. *)
Definition to_byte (z : Z) : Z := z mod 256.

(** * base64 *)
(** b64ev, jsiCmds.c:4229 *)
Definition b64ev : list Z :=
  [65;66;67;68;69;70;71;72;73;74;75;76;77;78;79;80;81;82;83;84;85;86;87;88;89;90;
   97;98;99;100;101;102;103;104;105;106;107;108;109;110;111;112;113;114;115;116;117;118;119;120;121;122;
   48;49;50;51;52;53;54;55;56;57;43;47].

(** PPDCS, jsiCmds.c:4306; [rem] is ilen - pos *)
Definition ppdcs (rem : nat) (n : nat) (s : Z) : Z :=
  if (rem <? n)%nat then 61 else at_ b64ev (Z.to_nat s).

(** The four characters of one round of the loop 4305-4310; [p] is ib+pos. *)
Definition b64_round (p : list Z) : list Z :=
  let rem := length p in
  let i0 := schar (at_ p 0) in let i1 := schar (at_ p 1) in let i2 := schar (at_ p 2) in
  [at_ b64ev (Z.to_nat (Z.land (Z.shiftr i0 2) 0x3f));
   ppdcs rem 1 (Z.lor (Z.land (Z.shiftl i0 4) 0x30) (Z.land (Z.shiftr i1 4) 0x0f));
   ppdcs rem 2 (Z.lor (Z.land (Z.shiftl i1 2) 0x3c) (Z.land (Z.shiftr i2 6) 0x03));
   ppdcs rem 3 (Z.land i2 0x3f)].

(** B64EncodeDStr, jsiCmds.c:4299-4326.  [c] is the used part c[0..i-1] of the 74-byte line
    buffer; [None]: a write past the end of that buffer.  The result is what is appended to the
    dynamic string.  Fuel: rounds left. *)
Fixpoint b64_enc_loop (fuel : nat) (p : list Z) (c : list Z) : option (list Z) :=
  match fuel with
  | O => None
  | S f =>
    match p with
    | [] => if (73 <? length c)%nat then None else Some c            (* 4319-4324, c[i]=0 *)
    | _ =>
      let c' := c ++ b64_round p in
      if (72 <=? length c')%nat then
        if (73 <=? length c')%nat then None                          (* c[i++]='\n', c[i]=0 *)
        else option_map (fun o => (c' ++ [10]) ++ o) (b64_enc_loop f (skipn 3 p) [])
      else b64_enc_loop f (skipn 3 p) c'
    end
  end.
Definition b64_encode (s : list Z) : option (list Z) := b64_enc_loop (S (length s)) s [].

(** strchr(b64ev, c) - b64ev for a non-negative c; the terminating NUL is found too *)
Fixpoint strchr_ix (l : list Z) (c : Z) (i : Z) : option Z :=
  match l with
  | [] => if c =? 0 then Some i else None
  | x :: r => if x =? c then Some i else strchr_ix r c (i + 1)
  end.

(** b64getidx, jsiCmds.c:4233-4251: index (or -1), rest of the input, new value of atend *)
Fixpoint b64_scan (p : list Z) : Z * list Z * bool :=
  match p with
  | [] => (-1, [], true)
  | c :: r =>
    if (schar c <? 0) || (c =? 61) then (-1, r, true)
    else match strchr_ix b64ev c 0 with
         | Some i => (i, r, false)
         | None => b64_scan r
         end
  end.
Definition b64_getidx (p : list Z) (atend : bool) : Z * list Z * bool :=
  if atend then (-1, p, true) else b64_scan p.

(** The bytes produced from one group of four indices, 4270-4281 *)
Definition b64_group (c0 c1 c2 c3 : Z) : list Z :=
  if (0 <=? c0) && (0 <=? c1) then
    to_byte (Z.lor (Z.land (Z.shiftl c0 2) 0xfc) (Z.land (Z.shiftr c1 4) 0x03)) ::
    if 0 <=? c2 then
      to_byte (Z.lor (Z.land (Z.shiftl c1 4) 0xf0) (Z.land (Z.shiftr c2 2) 0x0f)) ::
      if 0 <=? c3 then [to_byte (Z.lor (Z.land (Z.shiftl c2 6) 0xc0) (Z.land c3 0x3f))]
      else []
    else []
  else [].

(** B64DecodeDStr, jsiCmds.c:4253-4288.  [None]: out of fuel. *)
Fixpoint b64_dec_loop (fuel : nat) (p : list Z) : option (list Z) :=
  match fuel with
  | O => None
  | S f =>
    if (at_ p 0 =? 10) || (at_ p 0 =? 13) then b64_dec_loop f (skipn 1 p)
    else
      let '(c0, p, e) := b64_getidx p false in
      let '(c1, p, e) := b64_getidx p e in
      let '(c2, p, e) := b64_getidx p e in
      let '(c3, p, e) := b64_getidx p e in
      if e then Some (b64_group c0 c1 c2 c3)
      else option_map (fun o => b64_group c0 c1 c2 c3 ++ o) (b64_dec_loop f p)
  end.
Definition b64_decode (s : list Z) : option (list Z) := b64_dec_loop (S (length s)) s.

(** * Hex digits *)
Definition isdigit (c : Z) : bool := (48 <=? c) && (c <=? 57).
Definition isupper (c : Z) : bool := (65 <=? c) && (c <=? 90).
Definition islower (c : Z) : bool := (97 <=? c) && (c <=? 122).
(** isalnum in the C locale *)
Definition isalnum (c : Z) : bool := isdigit c || isupper c || islower c.
Definition isxdigit (c : Z) : bool :=
  isdigit c || ((65 <=? c) && (c <=? 70)) || ((97 <=? c) && (c <=? 102)).
Definition tolower (c : Z) : Z := if isupper c then c + 32 else c.

(** jsi_fromHexChar, jsiUtils.c:2505-2507 *)
Definition from_hex_char (b : Z) : Z :=
  let ch := schar b in if isdigit ch then ch - 48 else tolower ch - 97 + 10.
Definition hex_digits : list Z := [48;49;50;51;52;53;54;55;56;57;97;98;99;100;101;102].
(** jsi_toHexChar, jsiUtils.c:2510-2513 *)
Definition to_hex_char (code : Z) : Z := at_ hex_digits (Z.to_nat (Z.land code 15)).

(** jsi_ToHexStr, jsiUtils.c:2515-2524: the bytes written, without the final NUL *)
Definition to_hex_str (s : list Z) : list Z :=
  flat_map (fun c => [at_ hex_digits (Z.to_nat (Z.land (Z.shiftr c 4) 0xf));
                      at_ hex_digits (Z.to_nat (Z.land c 0xf))]) s.

(** jsi_FromHexStr, jsiUtils.c:2526-2535: [None] is the return value -1, otherwise the bytes
    written (their number is the value returned). *)
Fixpoint from_hex_str (s : list Z) : option (list Z) :=
  match s with
  | c :: d :: r =>
    if (c =? 0) || (d =? 0) then Some []
    else if negb (isxdigit c) || isxdigit c then None
    else option_map (cons (to_byte (Z.lor (Z.shiftl (from_hex_char c) 4) (from_hex_char d)))) (from_hex_str r)
  | _ => Some []
  end.

(** Bytes of storage a fresh (zeroed) dynamic string has after Jsi_DSSetLength(olen),
    jsiDString.c:192-221: the static 200 bytes, or olen+1 from the heap (olen < JSI_MAX_ALLOC_BUF). *)
Definition ds_storage (olen : Z) : Z := if olen <? 200 then 200 else olen + 1.

(** Jsi_HexStr, jsiUtils.c:2538-2545, on a fresh dynamic string: number of bytes of storage, bytes
    written into it, and the return value. The length field of the dynamic string is not touched. *)
Inductive hexres := HexError | HexOverflow | HexOk (written : list Z) (ret : Z).
Definition hex_str (data : list Z) (decode : bool) : hexres :=
  let len := Z.of_nat (length data) in
  let olen := if decode then len / 2 + 1 else len * 2 + 1 in
  if negb decode then
    match from_hex_str data with
    | None => HexError
    | Some o => if Z.of_nat (length o) <=? ds_storage olen then HexOk o (Z.of_nat (length o)) else HexOverflow
    end
  else
    let o := to_hex_str data in
    if Z.of_nat (length o) + 1 <=? ds_storage olen then HexOk o (olen - 1) else HexOverflow.

(** The hexStr command, SysHexStrCmd, jsiCmds.c:4437-4456, on a non-empty string: the string
    returned ([None]: an error or a memory overflow).  Jsi_ValueFromDS (jsiValue.c:1847-1861)
    looks at the length field, which is still 0. *)
Definition sys_hexstr (data : list Z) (decode : bool) : option (list Z) :=
  match hex_str data decode with HexOk _ _ => Some [] | _ => None end.

(** * URI escaping *)
Definition ncomps : list Z := [45;95;46;33;126;42;39;40;41].            (* -_.!~*'() *)
Definition comps : list Z := [59;44;47;63;58;64;38;61;43;36;35].        (* ;,/?:@&=+$# *)
(** Jsi_Strchr(l, c) for a char c: also true for the NUL *)
Definition strchr (l : list Z) (c : Z) : bool :=
  match strchr_ix l c 0 with Some _ => true | None => false end.

(** url_encode, jsiCmds.c:1178-1194.  Bytes from 128 up are negative chars: isalnum is false for
    them and they occur in neither list. *)
Definition url_enc1 (comp : bool) (c : Z) : list Z :=
  if isalnum c || (negb (strchr ncomps c) && (negb comp || negb (strchr comps c))) then [c]
  else if c =? 32 then [43]
  else [37; to_hex_char (Z.shiftr (schar c) 4); to_hex_char (Z.land (schar c) 15)].
Definition url_encode (comp : bool) (s : list Z) : list Z := flat_map (url_enc1 comp) s.

(** url_decode, jsiCmds.c:1197-1222.  Strings hold no NUL, so pstr[1] and pstr[2] are tested by
    the length of the list. *)
Fixpoint url_decode (comp : bool) (s : list Z) : list Z :=
  match s with
  | [] => []
  | c :: r =>
    if c =? 37 then
      match r with
      | x :: y :: r2 =>
        let cc := to_byte (Z.lor (Z.shiftl (from_hex_char x) 4) (from_hex_char y)) in
        if negb comp && strchr comps cc then 37 :: url_decode comp r
        else cc :: url_decode comp r2
      | _ => url_decode comp r
      end
    else if c =? 43 then 32 :: url_decode comp r
    else c :: url_decode comp r
  end.

(** * CRC-32 *)
(** s_crc32, jsiCmds.c:4199-4202 *)
Definition s_crc32 : list Z :=
  [0x00000000; 0x1db71064; 0x3b6e20c8; 0x26d930ac; 0x76dc4190; 0x6b6b51f4; 0x4db26158; 0x5005713c;
   0xedb88320; 0xf00f9344; 0xd6d6a3e8; 0xcb61b38c; 0x9b64c2b0; 0x86d3d2d4; 0xa00ae278; 0xbdbdf21c].
(** ~x on uint32_t *)
Definition not32 (x : Z) : Z := 0xffffffff - x.
(** The body of the loop, jsiCmds.c:4207-4211 *)
Definition crc_byte (crc b : Z) : Z :=
  let c1 := Z.lxor (Z.shiftr crc 4) (at_ s_crc32 (Z.to_nat (Z.lxor (Z.land crc 0xF) (Z.land b 0xF)))) in
  Z.lxor (Z.shiftr c1 4) (at_ s_crc32 (Z.to_nat (Z.lxor (Z.land c1 0xF) (Z.shiftr b 4)))).
(** Jsi_Crc32, jsiCmds.c:4197-4213, for a non-NULL buffer *)
Definition crc32 (crc : Z) (s : list Z) : Z := not32 (fold_left crc_byte s (not32 crc)).
