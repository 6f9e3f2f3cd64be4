(** Model of the digests of src/jsiCrypto.c: MD5 (15-251), SHA-1 (261-416), SHA-256 (422-567),
    SHA-3 (579-766), the type switch (770-798) and the proof-of-work loop (800-850).
    uint is a Z in 0..2^32-1; C's arrays are lists.  A context that C leaves uninitialised (the data
    buffer of the SHA and MD5 contexts, the result buffer digest[]) is an arbitrary list passed in. *)
From Coq Require Import ZArith List Bool.
Import ListNotations.
From Verif Require Import UtfModel XxteaModel.
Local Open Scope Z_scope.

Definition W64 : Z := 18446744073709551616.
(** ~x on uint *)
Definition not32 (x : Z) : Z := Z.lxor x 4294967295.
(** ROTLEFT / ROTRIGHT, 272-273 and 434-435; also w<<s | w>>(32-s), 43 *)
Definition ROTLEFT (a b : Z) : Z := Z.lor (shl32 a b) (Z.shiftr a (32 - b)).
Definition ROTRIGHT (a b : Z) : Z := Z.lor (Z.shiftr a b) (shl32 a (32 - b)).

(** memset / the padding loops: write v at positions i .. i+n-1 *)
Fixpoint fill (n i : nat) (v : Z) (d : list Z) : list Z :=
  match n with O => d | S m => fill m (S i) v (set_nth i v d) end.
(** memcpy(d + i, src, length src) *)
Fixpoint copy_at (i : nat) (src : list Z) (d : list Z) : list Z :=
  match src with [] => d | b :: r => copy_at (S i) r (set_nth i b d) end.

(** The 16 big-endian words of a block: m[i] = data[j]<<24 | .. , 279-280 and 463-464 (SHA-1 uses +) *)
Fixpoint be_words (d : list Z) : list Z :=
  match d with
  | a :: b :: c :: e :: r => (Z.lor (Z.lor (Z.lor (shl32 a 24) (Z.shiftl b 16)) (Z.shiftl c 8)) e) :: be_words r
  | _ => []
  end.

(* ------------------------------------------------------------------ SHA-1 *)
(** m[16..79], 281-284: the array m grows by one word per iteration *)
Fixpoint sha1_sched (n i : nat) (m : list Z) : list Z :=
  match n with
  | O => m
  | S n' => let x := Z.lxor (Z.lxor (Z.lxor (at_ m (i - 3)) (at_ m (i - 8))) (at_ m (i - 14))) (at_ m (i - 16)) in
            sha1_sched n' (S i) (m ++ [Z.lor (shl32 x 1) (Z.shiftr x 31)])
  end.
Definition regs5 : Type := Z * Z * Z * Z * Z.
(** One iteration of the four loops 292-323: which loop is chosen by i *)
Definition sha1_round (m : list Z) (r : regs5) (i : nat) : regs5 :=
  let '(a, b, c, d, e) := r in
  let f := if (i <? 20)%nat then Z.lxor (Z.land b c) (Z.land (not32 b) d)
           else if (i <? 40)%nat then Z.lxor (Z.lxor b c) d
           else if (i <? 60)%nat then Z.lxor (Z.lxor (Z.land b c) (Z.land b d)) (Z.land c d)
           else Z.lxor (Z.lxor b c) d in
  let k := if (i <? 20)%nat then 0x5a827999 else if (i <? 40)%nat then 0x6ed9eba1
           else if (i <? 60)%nat then 0x8f1bbcdc else 0xca62c1d6 in
  let t := add32 (add32 (add32 (add32 (ROTLEFT a 5) f) e) k) (at_ m i) in
  (t, a, ROTLEFT b 30, c, d).
(** sha1_transform, 276-330, on the five state words *)
Definition sha1_transform (st : list Z) (data : list Z) : list Z :=
  let m := sha1_sched 64 16 (be_words data) in
  let '(a, b, c, d, e) := fold_left (sha1_round m) (seq 0 80) (at_ st 0, at_ st 1, at_ st 2, at_ st 3, at_ st 4) in
  [add32 (at_ st 0) a; add32 (at_ st 1) b; add32 (at_ st 2) c; add32 (at_ st 3) d; add32 (at_ st 4) e].
(** sha1_init, 332-344 *)
Definition sha1_iv : list Z := [0x67452301; 0xEFCDAB89; 0x98BADCFE; 0x10325476; 0xc3d2e1f0].

(* ---------------------------------------------------------------- SHA-256 *)
(** The macros 437-442 *)
Definition CH (x y z : Z) : Z := Z.lxor (Z.land x y) (Z.land (not32 x) z).
Definition MAJ (x y z : Z) : Z := Z.lxor (Z.lxor (Z.land x y) (Z.land x z)) (Z.land y z).
Definition EP0 (x : Z) : Z := Z.lxor (Z.lxor (ROTRIGHT x 2) (ROTRIGHT x 13)) (ROTRIGHT x 22).
Definition EP1 (x : Z) : Z := Z.lxor (Z.lxor (ROTRIGHT x 6) (ROTRIGHT x 11)) (ROTRIGHT x 25).
Definition SIG0 (x : Z) : Z := Z.lxor (Z.lxor (ROTRIGHT x 7) (ROTRIGHT x 18)) (Z.shiftr x 3).
Definition SIG1 (x : Z) : Z := Z.lxor (Z.lxor (ROTRIGHT x 17) (ROTRIGHT x 19)) (Z.shiftr x 10).
(** k[64], 445-454 *)
Definition sha256_k : list Z :=
  [0x428a2f98; 0x71374491; 0xb5c0fbcf; 0xe9b5dba5;
   0x3956c25b; 0x59f111f1; 0x923f82a4; 0xab1c5ed5;
   0xd807aa98; 0x12835b01; 0x243185be; 0x550c7dc3;
   0x72be5d74; 0x80deb1fe; 0x9bdc06a7; 0xc19bf174;
   0xe49b69c1; 0xefbe4786; 0x0fc19dc6; 0x240ca1cc;
   0x2de92c6f; 0x4a7484aa; 0x5cb0a9dc; 0x76f988da;
   0x983e5152; 0xa831c66d; 0xb00327c8; 0xbf597fc7;
   0xc6e00bf3; 0xd5a79147; 0x06ca6351; 0x14292967;
   0x27b70a85; 0x2e1b2138; 0x4d2c6dfc; 0x53380d13;
   0x650a7354; 0x766a0abb; 0x81c2c92e; 0x92722c85;
   0xa2bfe8a1; 0xa81a664b; 0xc24b8b70; 0xc76c51a3;
   0xd192e819; 0xd6990624; 0xf40e3585; 0x106aa070;
   0x19a4c116; 0x1e376c08; 0x2748774c; 0x34b0bcb5;
   0x391c0cb3; 0x4ed8aa4a; 0x5b9cca4f; 0x682e6ff3;
   0x748f82ee; 0x78a5636f; 0x84c87814; 0x8cc70208;
   0x90befffa; 0xa4506ceb; 0xbef9a3f7; 0xc67178f2].
(** m[16..63], 465-466 *)
Fixpoint sha256_sched (n i : nat) (m : list Z) : list Z :=
  match n with
  | O => m
  | S n' => let x := add32 (add32 (add32 (SIG1 (at_ m (i - 2))) (at_ m (i - 7))) (SIG0 (at_ m (i - 15)))) (at_ m (i - 16)) in
            sha256_sched n' (S i) (m ++ [x])
  end.
Definition regs8 : Type := Z * Z * Z * Z * Z * Z * Z * Z.
(** The loop body 477-488 *)
Definition sha256_round (m : list Z) (r : regs8) (i : nat) : regs8 :=
  let '(a, b, c, d, e, f, g, h) := r in
  let t1 := add32 (add32 (add32 (add32 h (EP1 e)) (CH e f g)) (at_ sha256_k i)) (at_ m i) in
  let t2 := add32 (EP0 a) (MAJ a b c) in
  (add32 t1 t2, a, b, c, add32 d t1, e, f, g).
(** sha256_transform, 457-499 *)
Definition sha256_transform (st : list Z) (data : list Z) : list Z :=
  let m := sha256_sched 48 16 (be_words data) in
  let '(a, b, c, d, e, f, g, h) := fold_left (sha256_round m) (seq 0 64)
      (at_ st 0, at_ st 1, at_ st 2, at_ st 3, at_ st 4, at_ st 5, at_ st 6, at_ st 7) in
  [add32 (at_ st 0) a; add32 (at_ st 1) b; add32 (at_ st 2) c; add32 (at_ st 3) d;
   add32 (at_ st 4) e; add32 (at_ st 5) f; add32 (at_ st 6) g; add32 (at_ st 7) h].
(** sha256_init, 501-513 *)
Definition sha256_iv : list Z :=
  [0x6a09e667; 0xbb67ae85; 0x3c6ef372; 0xa54ff53a; 0x510e527f; 0x9b05688c; 0x1f83d9ab; 0x5be0cd19].

(* -------------------------------------------- update / final, SHA-1 and SHA-256 *)
(** jsi_SHA1_CTX 261-267 / jsi_SHA256_CTX 424-429 (k[] is constant) *)
Record sha_ctx := { s_data : list Z; s_datalen : nat; s_bitlen : Z; s_state : list Z }.
(** sha1_init / sha256_init; junk is the uninitialised data[64] *)
Definition sha_init (iv junk : list Z) : sha_ctx := {| s_data := junk; s_datalen := 0; s_bitlen := 0; s_state := iv |}.
(** The loop body of sha1_update 351-358 / sha256_update 520-527 (the same text with the other transform) *)
Definition sha_byte (tr : list Z -> list Z -> list Z) (c : sha_ctx) (b : Z) : sha_ctx :=
  let d := set_nth (s_datalen c) b (s_data c) in
  if (s_datalen c + 1 =? 64)%nat
  then {| s_data := d; s_datalen := 0; s_bitlen := (s_bitlen c + 512) mod W64; s_state := tr (s_state c) d |}
  else {| s_data := d; s_datalen := s_datalen c + 1; s_bitlen := s_bitlen c; s_state := s_state c |}.
(** sha1_update 346-359 / sha256_update 515-528 *)
Definition sha_update (tr : list Z -> list Z -> list Z) (c : sha_ctx) (msg : list Z) : sha_ctx :=
  fold_left (sha_byte tr) msg c.
(** data[56..63] = bitlen >> 56 .. bitlen, 382-389 / 551-558 (uchar conversions) *)
Definition put_len (bl : Z) (d : list Z) : list Z :=
  fold_left (fun d i => set_nth (63 - i) (Z.shiftr bl (8 * Z.of_nat i) mod 256) d) (seq 0 8) d.
(** sha1_final 361-402 / sha256_final 530-577 up to the copying out *)
Definition sha_final_state (tr : list Z -> list Z -> list Z) (c : sha_ctx) : list Z :=
  let i := s_datalen c in
  let '(d, st) :=
    if (i <? 56)%nat then (fill (56 - (i + 1)) (i + 1) 0 (set_nth i 128 (s_data c)), s_state c)
    else let d := fill (64 - (i + 1)) (i + 1) 0 (set_nth i 128 (s_data c)) in
         (fill 56 0 0 d, tr (s_state c) d) in
  let bl := (s_bitlen c + Z.of_nat i * 8) mod W64 in
  tr st (put_len bl d).
(** hash[i + 4*w] = (state[w] >> (24 - i*8)) & 0xff, 394-400 / 563-572 *)
Definition be_bytes (w : Z) : list Z :=
  [Z.land (Z.shiftr w 24) 255; Z.land (Z.shiftr w 16) 255; Z.land (Z.shiftr w 8) 255; Z.land (Z.shiftr w 0) 255].
(** Init, one update per chunk, final (jsi_Sha1Digest 406-415 / jsi_Sha256Digest 768-777 use one chunk) *)
Definition sha_digest (tr : list Z -> list Z -> list Z) (iv junk : list Z) (chunks : list (list Z)) : list Z :=
  flat_map be_bytes (sha_final_state tr (fold_left (sha_update tr) chunks (sha_init iv junk))).
Definition sha1_digest := sha_digest sha1_transform sha1_iv.
Definition sha256_digest := sha_digest sha256_transform sha256_iv.

(* -------------------------------------------------------------------- MD5 *)
Inductive md5_fn := F1 | F2 | F3 | F4.
Inductive md5_reg := Ra | Rb | Rc | Rd.
(** _JSI_F1.. _JSI_F4, 36-39 *)
Definition md5_f (f : md5_fn) (x y z : Z) : Z :=
  match f with
  | F1 => Z.lxor z (Z.land x (Z.lxor y z))
  | F2 => Z.lxor y (Z.land z (Z.lxor x y))
  | F3 => Z.lxor (Z.lxor x y) z
  | F4 => Z.lxor y (Z.lor x (not32 z))
  end.
Definition regs4 : Type := Z * Z * Z * Z.
Definition md5_get (r : regs4) (n : md5_reg) : Z :=
  let '(a, b, c, d) := r in match n with Ra => a | Rb => b | Rc => c | Rd => d end.
Definition md5_put (r : regs4) (n : md5_reg) (v : Z) : regs4 :=
  let '(a, b, c, d) := r in match n with Ra => (v, b, c, d) | Rb => (a, v, c, d) | Rc => (a, b, v, d) | Rd => (a, b, c, v) end.
Definition md5_op : Type := md5_fn * (md5_reg * md5_reg * md5_reg * md5_reg) * nat * Z * Z.
(** _JSI_MD5STEP(f, w, x, y, z, in[i]+k, s), 42-43 *)
Definition md5_step (inw : list Z) (r : regs4) (o : md5_op) : regs4 :=
  let '(f, (w, x, y, z), i, k, s) := o in
  let w1 := add32 (md5_get r w) (add32 (md5_f f (md5_get r x) (md5_get r y) (md5_get r z)) (add32 (at_ inw i) k)) in
  let w2 := Z.lor (shl32 w1 s) (Z.shiftr w1 (32 - s)) in
  md5_put r w (add32 w2 (md5_get r x)).
(** The 64 steps, 58-128, transcribed in order *)
Definition md5_steps : list md5_op :=
  [(F1, (Ra, Rb, Rc, Rd), 0%nat, 0xd76aa478, 7); (F1, (Rd, Ra, Rb, Rc), 1%nat, 0xe8c7b756, 12);
   (F1, (Rc, Rd, Ra, Rb), 2%nat, 0x242070db, 17); (F1, (Rb, Rc, Rd, Ra), 3%nat, 0xc1bdceee, 22);
   (F1, (Ra, Rb, Rc, Rd), 4%nat, 0xf57c0faf, 7); (F1, (Rd, Ra, Rb, Rc), 5%nat, 0x4787c62a, 12);
   (F1, (Rc, Rd, Ra, Rb), 6%nat, 0xa8304613, 17); (F1, (Rb, Rc, Rd, Ra), 7%nat, 0xfd469501, 22);
   (F1, (Ra, Rb, Rc, Rd), 8%nat, 0x698098d8, 7); (F1, (Rd, Ra, Rb, Rc), 9%nat, 0x8b44f7af, 12);
   (F1, (Rc, Rd, Ra, Rb), 10%nat, 0xffff5bb1, 17); (F1, (Rb, Rc, Rd, Ra), 11%nat, 0x895cd7be, 22);
   (F1, (Ra, Rb, Rc, Rd), 12%nat, 0x6b901122, 7); (F1, (Rd, Ra, Rb, Rc), 13%nat, 0xfd987193, 12);
   (F1, (Rc, Rd, Ra, Rb), 14%nat, 0xa679438e, 17); (F1, (Rb, Rc, Rd, Ra), 15%nat, 0x49b40821, 22);
   (F2, (Ra, Rb, Rc, Rd), 1%nat, 0xf61e2562, 5); (F2, (Rd, Ra, Rb, Rc), 6%nat, 0xc040b340, 9);
   (F2, (Rc, Rd, Ra, Rb), 11%nat, 0x265e5a51, 14); (F2, (Rb, Rc, Rd, Ra), 0%nat, 0xe9b6c7aa, 20);
   (F2, (Ra, Rb, Rc, Rd), 5%nat, 0xd62f105d, 5); (F2, (Rd, Ra, Rb, Rc), 10%nat, 0x02441453, 9);
   (F2, (Rc, Rd, Ra, Rb), 15%nat, 0xd8a1e681, 14); (F2, (Rb, Rc, Rd, Ra), 4%nat, 0xe7d3fbc8, 20);
   (F2, (Ra, Rb, Rc, Rd), 9%nat, 0x21e1cde6, 5); (F2, (Rd, Ra, Rb, Rc), 14%nat, 0xc33707d6, 9);
   (F2, (Rc, Rd, Ra, Rb), 3%nat, 0xf4d50d87, 14); (F2, (Rb, Rc, Rd, Ra), 8%nat, 0x455a14ed, 20);
   (F2, (Ra, Rb, Rc, Rd), 13%nat, 0xa9e3e905, 5); (F2, (Rd, Ra, Rb, Rc), 2%nat, 0xfcefa3f8, 9);
   (F2, (Rc, Rd, Ra, Rb), 7%nat, 0x676f02d9, 14); (F2, (Rb, Rc, Rd, Ra), 12%nat, 0x8d2a4c8a, 20);
   (F3, (Ra, Rb, Rc, Rd), 5%nat, 0xfffa3942, 4); (F3, (Rd, Ra, Rb, Rc), 8%nat, 0x8771f681, 11);
   (F3, (Rc, Rd, Ra, Rb), 11%nat, 0x6d9d6122, 16); (F3, (Rb, Rc, Rd, Ra), 14%nat, 0xfde5380c, 23);
   (F3, (Ra, Rb, Rc, Rd), 1%nat, 0xa4beea44, 4); (F3, (Rd, Ra, Rb, Rc), 4%nat, 0x4bdecfa9, 11);
   (F3, (Rc, Rd, Ra, Rb), 7%nat, 0xf6bb4b60, 16); (F3, (Rb, Rc, Rd, Ra), 10%nat, 0xbebfbc70, 23);
   (F3, (Ra, Rb, Rc, Rd), 13%nat, 0x289b7ec6, 4); (F3, (Rd, Ra, Rb, Rc), 0%nat, 0xeaa127fa, 11);
   (F3, (Rc, Rd, Ra, Rb), 3%nat, 0xd4ef3085, 16); (F3, (Rb, Rc, Rd, Ra), 6%nat, 0x04881d05, 23);
   (F3, (Ra, Rb, Rc, Rd), 9%nat, 0xd9d4d039, 4); (F3, (Rd, Ra, Rb, Rc), 12%nat, 0xe6db99e5, 11);
   (F3, (Rc, Rd, Ra, Rb), 15%nat, 0x1fa27cf8, 16); (F3, (Rb, Rc, Rd, Ra), 2%nat, 0xc4ac5665, 23);
   (F4, (Ra, Rb, Rc, Rd), 0%nat, 0xf4292244, 6); (F4, (Rd, Ra, Rb, Rc), 7%nat, 0x432aff97, 10);
   (F4, (Rc, Rd, Ra, Rb), 14%nat, 0xab9423a7, 15); (F4, (Rb, Rc, Rd, Ra), 5%nat, 0xfc93a039, 21);
   (F4, (Ra, Rb, Rc, Rd), 12%nat, 0x655b59c3, 6); (F4, (Rd, Ra, Rb, Rc), 3%nat, 0x8f0ccc92, 10);
   (F4, (Rc, Rd, Ra, Rb), 10%nat, 0xffeff47d, 15); (F4, (Rb, Rc, Rd, Ra), 1%nat, 0x85845dd1, 21);
   (F4, (Ra, Rb, Rc, Rd), 8%nat, 0x6fa87e4f, 6); (F4, (Rd, Ra, Rb, Rc), 15%nat, 0xfe2ce6e0, 10);
   (F4, (Rc, Rd, Ra, Rb), 6%nat, 0xa3014314, 15); (F4, (Rb, Rc, Rd, Ra), 13%nat, 0x4e0811a1, 21);
   (F4, (Ra, Rb, Rc, Rd), 4%nat, 0xf7537e82, 6); (F4, (Rd, Ra, Rb, Rc), 11%nat, 0xbd3af235, 10);
   (F4, (Rc, Rd, Ra, Rb), 2%nat, 0x2ad7d2bb, 15); (F4, (Rb, Rc, Rd, Ra), 9%nat, 0xeb86d391, 21)].
(** jsi_MD5Transform, 50-134 *)
Definition md5_transform_w (st inw : list Z) : list Z :=
  let '(a, b, c, d) := fold_left (md5_step inw) md5_steps (at_ st 0, at_ st 1, at_ st 2, at_ st 3) in
  [add32 (at_ st 0) a; add32 (at_ st 1) b; add32 (at_ st 2) c; add32 (at_ st 3) d].
(** jsi_MD5_byteReverse, 24-33: the buffer read as little-endian words *)
Fixpoint le_words (d : list Z) : list Z :=
  match d with
  | a :: b :: c :: e :: r => Z.lor (shl32 (Z.lor (Z.shiftl e 8) c) 16) (Z.lor (Z.shiftl b 8) a) :: le_words r
  | _ => []
  end.
(** The in[64] buffer is kept as bytes; byteReverse + Transform read it as words.  (After a transform C
    leaves the reversed words in the buffer; on the little-endian hosts the project targets these are the
    same bytes.) *)
Definition md5_transform (st data : list Z) : list Z := md5_transform_w st (le_words data).
(** struct jsi_MD5_Context, 15-19 *)
Record md5_ctx := { md_buf : list Z; md_lo : Z; md_hi : Z; md_in : list Z }.
(** jsi_MD5Init, 140-148 *)
Definition md5_iv : list Z := [0x67452301; 0xefcdab89; 0x98badcfe; 0x10325476].
Definition md5_init (junk : list Z) : md5_ctx := {| md_buf := md5_iv; md_lo := 0; md_hi := 0; md_in := junk |}.
(** while (len >= 64) ..; then memcpy(in, buf, len), 182-193.  Fuel: the number of bytes left. *)
Fixpoint md5_blocks (fuel : nat) (buf inb : list Z) (msg : list Z) : list Z * list Z :=
  match fuel with
  | O => (buf, copy_at 0 msg inb)
  | S f => if (64 <=? length msg)%nat
           then let inb' := copy_at 0 (firstn 64 msg) inb in md5_blocks f (md5_transform buf inb') inb' (skipn 64 msg)
           else (buf, copy_at 0 msg inb)
  end.
(** jsi_MD5Update, 154-194; len is an unsigned int *)
Definition md5_update (c : md5_ctx) (msg : list Z) : md5_ctx :=
  let len := Z.of_nat (length msg) mod W32 in
  let lo := add32 (md_lo c) (shl32 len 3) in
  let hi := add32 (if lo <? md_lo c then add32 (md_hi c) 1 else md_hi c) (Z.shiftr len 29) in
  let t := Z.to_nat (Z.land (Z.shiftr (md_lo c) 3) 63) in
  if (t =? 0)%nat then
    let '(b, i) := md5_blocks (length msg) (md_buf c) (md_in c) msg in
    {| md_buf := b; md_lo := lo; md_hi := hi; md_in := i |}
  else
    let u := (64 - t)%nat in
    if (length msg <? u)%nat
    then {| md_buf := md_buf c; md_lo := lo; md_hi := hi; md_in := copy_at t msg (md_in c) |}
    else
      let inb := copy_at t (firstn u msg) (md_in c) in
      let msg' := skipn u msg in
      let '(b, i) := md5_blocks (length msg') (md5_transform (md_buf c) inb) inb msg' in
      {| md_buf := b; md_lo := lo; md_hi := hi; md_in := i |}.
(** Little-endian bytes of a word *)
Definition le_bytes (w : Z) : list Z := [w mod 256; w / 256 mod 256; w / 65536 mod 256; w / 16777216 mod 256].
(** MD5Final, 200-237; the two length words are stored at in[56..63] *)
Definition md5_final_state (c : md5_ctx) : list Z :=
  let count := Z.to_nat (Z.land (Z.shiftr (md_lo c) 3) 63) in
  let d := set_nth count 128 (md_in c) in
  let cnt := (64 - 1 - count)%nat in
  let '(d, st) :=
    if (cnt <? 8)%nat
    then let d := fill cnt (count + 1) 0 d in (fill 56 0 0 d, md5_transform (md_buf c) d)
    else (fill (cnt - 8) (count + 1) 0 d, md_buf c) in
  md5_transform st (copy_at 56 (le_bytes (md_lo c) ++ le_bytes (md_hi c)) d).
(** jsi_Md5Digest, 239-248, generalised to several updates *)
Definition md5_digest (junk : list Z) (chunks : list (list Z)) : list Z :=
  flat_map le_bytes (md5_final_state (fold_left md5_update chunks (md5_init junk))).

(* ------------------------------------------------------------------ SHA-3 *)
(** keccakf_rndc, 638-648 *)
Definition keccakf_rndc : list Z :=
  [0x0000000000000001; 0x0000000000008082; 0x800000000000808a;
   0x8000000080008000; 0x000000000000808b; 0x0000000080000001;
   0x8000000080008081; 0x8000000000008009; 0x000000000000008a;
   0x0000000000000088; 0x0000000080008009; 0x000000008000000a;
   0x000000008000808b; 0x800000000000008b; 0x8000000000008089;
   0x8000000000008003; 0x8000000000008002; 0x8000000000000080;
   0x000000000000800a; 0x800000008000000a; 0x8000000080008081;
   0x8000000000008080; 0x0000000080000001; 0x8000000080008008].
(** keccakf_rotc, 650-654; keccakf_piln, 656-660 *)
Definition keccakf_rotc : list Z :=
  [1; 3; 6; 10; 15; 21; 28; 36; 45; 55; 2; 14;
   27; 41; 56; 8; 25; 43; 62; 18; 39; 61; 20; 44].
Definition keccakf_piln : list nat :=
  [10%nat; 7%nat; 11%nat; 17%nat; 18%nat; 3%nat; 5%nat; 16%nat; 8%nat; 21%nat; 24%nat; 4%nat;
   15%nat; 23%nat; 19%nat; 13%nat; 12%nat; 2%nat; 20%nat; 14%nat; 22%nat; 9%nat; 6%nat; 1%nat].
(** ROTL64, 662 *)
Definition ROTL64 (x y : Z) : Z := Z.lor (Z.shiftl x y mod W64) (Z.shiftr x (64 - y)).
Definition not64 (x : Z) : Z := Z.lxor x 18446744073709551615.
(** Theta, 677-684 *)
Definition k_theta (st : list Z) : list Z :=
  let bc i := Z.lxor (Z.lxor (Z.lxor (Z.lxor (at_ st i) (at_ st (i + 5))) (at_ st (i + 10))) (at_ st (i + 15))) (at_ st (i + 20)) in
  let bcs := map bc (seq 0 5) in
  fold_left (fun st i =>
    let t := Z.lxor (at_ bcs ((i + 4) mod 5)) (ROTL64 (at_ bcs ((i + 1) mod 5)) 1) in
    fold_left (fun st j => set_nth (j + i) (Z.lxor (at_ st (j + i)) t) st) [0; 5; 10; 15; 20]%nat st) (seq 0 5) st.
(** Rho Pi, 687-693 *)
Definition k_rhopi (st : list Z) : list Z :=
  fst (fold_left (fun '(st, t) i =>
    let j := nth i keccakf_piln O in
    (set_nth j (ROTL64 t (at_ keccakf_rotc i)) st, at_ st j)) (seq 0 24) (st, at_ st 1)).
(** Chi, 696-701 *)
Definition k_chi (st : list Z) : list Z :=
  fold_left (fun st j =>
    let bc := map (fun i => at_ st (j + i)) (seq 0 5) in
    fold_left (fun st i => set_nth (j + i) (Z.lxor (at_ st (j + i)) (Z.land (not64 (at_ bc ((i + 1) mod 5))) (at_ bc ((i + 2) mod 5)))) st)
      (seq 0 5) st) [0; 5; 10; 15; 20]%nat st.
(** One round, 675-705 *)
Definition k_round (st : list Z) (rc : Z) : list Z :=
  let st := k_chi (k_rhopi (k_theta st)) in
  set_nth 0 (Z.lxor (at_ st 0) rc) st.
(** p[i] of (uint64_t* )ctx->blk: a little-endian word *)
Definition le_word64 (d : list Z) : Z := fold_right (fun b acc => b + 256 * acc) 0 d.
(** SHA3_Transform, 664-706, on state and block *)
Definition sha3_transform (blklen : nat) (st blk : list Z) : list Z :=
  let st := fold_left (fun st i => set_nth i (Z.lxor (at_ st i) (le_word64 (firstn 8 (skipn (8 * i) blk)))) st)
              (seq 0 (blklen / 8)) st in
  fold_left k_round keccakf_rndc st.
(** SHA3_CTX, 599-607 *)
Record sha3_ctx := { k_state : list Z; k_index : nat; k_dgstlen : nat; k_blklen : nat; k_blk : list Z }.
(** SHA3_Init, 611-636: (blklen, dgstlen) of the internal type number *)
Definition sha3_params (type : Z) : nat * nat :=
  if type =? 0 then (144, 28)%nat else if type =? 2 then (104, 48)%nat
  else if type =? 3 then (72, 64)%nat else (136, 32)%nat.
Definition sha3_init (type : Z) : sha3_ctx :=
  {| k_state := repeat 0 25; k_index := 0; k_dgstlen := snd (sha3_params type); k_blklen := fst (sha3_params type);
     k_blk := repeat 0 256 |}.
(** SHA3_Update, 708-731.  Fuel: one more than the number of bytes. *)
Fixpoint sha3_loop (fuel : nat) (blklen : nat) (st blk : list Z) (idx : nat) (p : list Z) : list Z * list Z * nat :=
  match fuel with
  | O => (st, blk, idx)
  | S f =>
    let r := Nat.min (blklen - idx) (length p) in
    let blk := copy_at idx (firstn r p) blk in
    if (idx + r <? blklen)%nat then (st, blk, idx + r)%nat
    else sha3_loop f blklen (sha3_transform blklen st blk) blk O (skipn r p)
  end.
Definition sha3_update (c : sha3_ctx) (msg : list Z) : sha3_ctx :=
  let '(st, blk, idx) := sha3_loop (S (length msg)) (k_blklen c) (k_state c) (k_blk c) (k_index c) msg in
  {| k_state := st; k_index := idx; k_dgstlen := k_dgstlen c; k_blklen := k_blklen c; k_blk := blk |}.
(** SHA3_Final, 733-745 *)
Definition le_bytes64 (w : Z) : list Z := map (fun i => w / 2 ^ (8 * Z.of_nat i) mod 256) (seq 0 8).
Definition sha3_final (c : sha3_ctx) : list Z :=
  let blk := set_nth (k_index c) 6 (k_blk c) in
  let blk := set_nth (k_blklen c - 1) (Z.lor (at_ blk (k_blklen c - 1)) 128) blk in
  firstn (k_dgstlen c) (flat_map le_bytes64 (sha3_transform (k_blklen c) (k_state c) blk)).
Definition sha3_chunks (type : Z) (chunks : list (list Z)) : list Z :=
  sha3_final (fold_left sha3_update chunks (sha3_init type)).

(* ------------------------------------------------------------- the commands *)
(** Jsi_CryptoHashType, jsi.h:710-711, numbered 0..6; hashTypeStrs jsiCmds.c:4459 *)
Inductive hash_type := SHA2_256 | SHA1 | MD5 | SHA3_224 | SHA3_384 | SHA3_512 | SHA3_256.
Definition hash_num (t : hash_type) : Z :=
  match t with SHA2_256 => 0 | SHA1 => 1 | MD5 => 2 | SHA3_224 => 3 | SHA3_384 => 4 | SHA3_512 => 5 | SHA3_256 => 6 end.
(** jsi_CryptoHash, 770-798: the bytes of digest[1024] that the returned count declares to be the digest.
    dig0 is the uninitialised contents of digest[].  jsi_Sha3Digest (757-766) always returns 64. *)
Definition crypto_hash (junk dig0 : list Z) (t : hash_type) (msg : list Z) : list Z :=
  match t with
  | SHA1 => firstn 20 (copy_at 0 (sha1_digest junk [msg]) dig0)
  | SHA2_256 => firstn 32 (copy_at 0 (sha256_digest junk [msg]) dig0)
  | MD5 => firstn 16 (copy_at 0 (md5_digest junk [msg]) dig0)
  | _ => firstn 64 (copy_at 0 (sha3_chunks (hash_num t - 3) [msg]) dig0)
  end.

(** snprintf(estr, 10, ":%08x", nonce), 823 *)
Definition hex_digit (n : Z) : Z := if n <? 10 then 48 + n else 87 + n.
Definition nonce_text (nonce : Z) : list Z :=
  58 :: map (fun i => hex_digit (nonce / 16 ^ (7 - Z.of_nat i) mod 16)) (seq 0 8).
(** smask, 818-820 *)
Fixpoint smask (sbits : nat) : Z := match sbits with O => 0 | S n => Z.lor (Z.shiftr (smask n) 1) 128 end.
(** The acceptance test of the loop, 825-834 *)
Definition pow_accept (strength : Z) (digest : list Z) : bool :=
  let sbytes := Z.to_nat (strength / 8) in
  let m := smask (Z.to_nat (strength - 8 * (strength / 8))) in
  forallb (fun b => b =? 0) (firstn sbytes digest) &&
  ((m =? 0) || (Z.land (at_ digest sbytes) m =? 0)).
(** while (1) of 822-836; None when the fuel runs out.  dg is the chosen digest function. *)
Fixpoint pow_loop (fuel : nat) (dg : list Z -> list Z) (msg : list Z) (strength nonce : Z) : option (Z * list Z) :=
  match fuel with
  | O => None
  | S f => let d := dg (msg ++ nonce_text nonce) in
           if pow_accept strength d then Some (nonce, d)
           else pow_loop f dg msg strength (add32 nonce 1)
  end.
