(** What the digests are: FIPS 180-4 (SHA-1, SHA-256), RFC 1321 (MD5) and FIPS 202 (SHA-3), written from
    the standards, not from the code.  Words are Z. *)
From Coq Require Import ZArith List.
Import ListNotations.
Local Open Scope Z_scope.

(** The consecutive n-byte blocks of a message whose length is a multiple of n *)
Definition blocks (n : nat) (l : list Z) : list (list Z) :=
  map (fun i => firstn n (skipn (n * i) l)) (seq 0 (length l / n)).
(** Byte i (from the least significant) of a number *)
Definition byte_of (i : nat) (x : Z) : Z := x / 2 ^ (8 * Z.of_nat i) mod 256.
(** x as n bytes, most significant first / least significant first *)
Definition big_endian (n : nat) (x : Z) : list Z := map (fun i => byte_of (n - 1 - i) x) (seq 0 n).
Definition little_endian (n : nat) (x : Z) : list Z := map (fun i => byte_of i x) (seq 0 n).
Definition from_be (l : list Z) : Z := fold_left (fun acc b => acc * 256 + b) l 0.
Definition from_le (l : list Z) : Z := fold_right (fun b acc => b + 256 * acc) 0 l.
(** Arithmetic on 32-bit words *)
Definition plus (a b : Z) : Z := (a + b) mod 2 ^ 32.
Definition sum (l : list Z) : Z := fold_left plus l 0.
Definition compl (x : Z) : Z := Z.lxor x (2 ^ 32 - 1).
Definition rotl (n x : Z) : Z := Z.lor (Z.shiftl x n mod 2 ^ 32) (Z.shiftr x (32 - n)).
Definition rotr (n x : Z) : Z := Z.lor (Z.shiftr x n) (Z.shiftl x (32 - n) mod 2 ^ 32).
Definition xor3 (a b c : Z) : Z := Z.lxor (Z.lxor a b) c.

(** Padding of MD5 and SHA-1/2: a one bit, the fewest zero bits that make the whole a multiple of 64
    bytes, and the length in bits modulo 2^64 as eight bytes. *)
Definition bit_length (msg : list Z) : Z := 8 * Z.of_nat (length msg) mod 2 ^ 64.
Definition zeros_needed (len : nat) : nat := (119 - len mod 64) mod 64.
Definition padded (enc_len : Z -> list Z) (msg : list Z) : list Z :=
  msg ++ 128 :: repeat 0 (zeros_needed (length msg)) ++ enc_len (bit_length msg).

(* ------------------------------------------------------------------ SHA-1 *)
(** Message schedule, newest word first: W_t = ROTL1 (W_{t-3} ^ W_{t-8} ^ W_{t-14} ^ W_{t-16}) *)
Fixpoint schedule1 (n : nat) (m : list Z) : list Z :=
  match n with
  | O => rev m
  | S k => let w := schedule1 k m in
           rotl 1 (Z.lxor (xor3 (nth 2 w 0) (nth 7 w 0) (nth 13 w 0)) (nth 15 w 0)) :: w
  end.
Definition Ch x y z := Z.lxor (Z.land x y) (Z.land (compl x) z).
Definition Maj x y z := xor3 (Z.land x y) (Z.land x z) (Z.land y z).
Definition f1 (t : nat) (x y z : Z) : Z :=
  match (t / 20)%nat with 0%nat => Ch x y z | 1%nat => xor3 x y z | 2%nat => Maj x y z | _ => xor3 x y z end.
(** K_t: 2^30 times the square roots of 2, 3, 5 and 10 *)
Definition K1 (t : nat) : Z := Z.sqrt (nth (t / 20) [2; 3; 5; 10] 0 * 2 ^ 60).
Definition iv1 : list Z := [0x67452301; 0xefcdab89; 0x98badcfe; 0x10325476; 0xc3d2e1f0].
Definition step1 (W : list Z) (h : list Z) (t : nat) : list Z :=
  match h with
  | [a; b; c; d; e] => [sum [rotl 5 a; f1 t b c d; e; K1 t; nth t W 0]; a; rotl 30 b; c; d]
  | _ => h
  end.
Definition compress1 (h : list Z) (block : list Z) : list Z :=
  let W := rev (schedule1 64 (map from_be (blocks 4 block))) in
  map (fun p => plus (fst p) (snd p)) (combine h (fold_left (step1 W) (seq 0 80) h)).
Definition SHA1_spec (msg : list Z) : list Z :=
  flat_map (big_endian 4) (fold_left compress1 (blocks 64 (padded (big_endian 8) msg)) iv1).

(* ---------------------------------------------------------------- SHA-256 *)
Definition primes64 : list Z :=
  [2;3;5;7;11;13;17;19;23;29;31;37;41;43;47;53;59;61;67;71;73;79;83;89;97;101;103;107;109;113;127;131;
   137;139;149;151;157;163;167;173;179;181;191;193;197;199;211;223;227;229;233;239;241;251;257;263;269;271;277;281;283;293;307;311].
(** The integer cube root, by bisection *)
Fixpoint cbrt_go (n : nat) (x r : Z) : Z :=
  match n with O => r | S k => let r' := r + 2 ^ Z.of_nat k in cbrt_go k x (if r' * r' * r' <=? x then r' else r) end.
Definition cbrt (x : Z) : Z := cbrt_go 40 x 0.
(** The first 32 bits of the fractional parts of the cube roots of the first 64 primes *)
Definition K256 (t : nat) : Z := cbrt (nth t primes64 0 * 2 ^ 96) mod 2 ^ 32.
(** and of the square roots of the first 8 *)
Definition iv256 : list Z := map (fun p => Z.sqrt (p * 2 ^ 64) mod 2 ^ 32) (firstn 8 primes64).
Definition S0 x := xor3 (rotr 2 x) (rotr 13 x) (rotr 22 x).
Definition S1 x := xor3 (rotr 6 x) (rotr 11 x) (rotr 25 x).
Definition s0 x := xor3 (rotr 7 x) (rotr 18 x) (Z.shiftr x 3).
Definition s1 x := xor3 (rotr 17 x) (rotr 19 x) (Z.shiftr x 10).
Fixpoint schedule256 (n : nat) (m : list Z) : list Z :=
  match n with
  | O => rev m
  | S k => let w := schedule256 k m in
           sum [s1 (nth 1 w 0); nth 6 w 0; s0 (nth 14 w 0); nth 15 w 0] :: w
  end.
Definition step256 (W : list Z) (h : list Z) (t : nat) : list Z :=
  match h with
  | [a; b; c; d; e; f; g; hh] =>
      let T1 := sum [hh; S1 e; Ch e f g; K256 t; nth t W 0] in
      let T2 := plus (S0 a) (Maj a b c) in
      [plus T1 T2; a; b; c; plus d T1; e; f; g]
  | _ => h
  end.
Definition compress256 (h : list Z) (block : list Z) : list Z :=
  let W := rev (schedule256 48 (map from_be (blocks 4 block))) in
  map (fun p => plus (fst p) (snd p)) (combine h (fold_left (step256 W) (seq 0 64) h)).
Definition SHA256_spec (msg : list Z) : list Z :=
  flat_map (big_endian 4) (fold_left compress256 (blocks 64 (padded (big_endian 8) msg)) iv256).

(* -------------------------------------------------------------------- MD5 *)
(** T[i] = floor (2^32 * |sin (i+1)|), as tabulated in RFC 1321 *)
Definition T5 : list Z :=
  [0xd76aa478; 0xe8c7b756; 0x242070db; 0xc1bdceee; 0xf57c0faf; 0x4787c62a; 0xa8304613; 0xfd469501;
   0x698098d8; 0x8b44f7af; 0xffff5bb1; 0x895cd7be; 0x6b901122; 0xfd987193; 0xa679438e; 0x49b40821;
   0xf61e2562; 0xc040b340; 0x265e5a51; 0xe9b6c7aa; 0xd62f105d; 0x02441453; 0xd8a1e681; 0xe7d3fbc8;
   0x21e1cde6; 0xc33707d6; 0xf4d50d87; 0x455a14ed; 0xa9e3e905; 0xfcefa3f8; 0x676f02d9; 0x8d2a4c8a;
   0xfffa3942; 0x8771f681; 0x6d9d6122; 0xfde5380c; 0xa4beea44; 0x4bdecfa9; 0xf6bb4b60; 0xbebfbc70;
   0x289b7ec6; 0xeaa127fa; 0xd4ef3085; 0x04881d05; 0xd9d4d039; 0xe6db99e5; 0x1fa27cf8; 0xc4ac5665;
   0xf4292244; 0x432aff97; 0xab9423a7; 0xfc93a039; 0x655b59c3; 0x8f0ccc92; 0xffeff47d; 0x85845dd1;
   0x6fa87e4f; 0xfe2ce6e0; 0xa3014314; 0x4e0811a1; 0xf7537e82; 0xbd3af235; 0x2ad7d2bb; 0xeb86d391].
Definition f5 (t : nat) (x y z : Z) : Z :=
  match (t / 16)%nat with
  | 0%nat => Z.lor (Z.land x y) (Z.ldiff z x)
  | 1%nat => Z.lor (Z.land x z) (Z.ldiff y z)
  | 2%nat => xor3 x y z
  | _ => Z.lxor y (Z.lor x (compl z))
  end.
(** Which word of the block step t uses, and how far it rotates *)
Definition k5 (t : nat) : nat :=
  match (t / 16)%nat with 0%nat => t | 1%nat => (5 * t + 1) mod 16 | 2%nat => (3 * t + 5) mod 16 | _ => (7 * t) mod 16 end.
Definition r5 (t : nat) : Z :=
  nth (t mod 4) (nth (t / 16) [[7; 12; 17; 22]; [5; 9; 14; 20]; [4; 11; 16; 23]; [6; 10; 15; 21]] []) 0.
Definition step5 (X : list Z) (h : list Z) (t : nat) : list Z :=
  match h with
  | [a; b; c; d] => [d; plus b (rotl (r5 t) (sum [a; f5 t b c d; nth (k5 t) X 0; nth t T5 0])); b; c]
  | _ => h
  end.
Definition compress5 (h : list Z) (block : list Z) : list Z :=
  let X := map from_le (blocks 4 block) in
  map (fun p => plus (fst p) (snd p)) (combine h (fold_left (step5 X) (seq 0 64) h)).
Definition iv5 : list Z := [0x67452301; 0xefcdab89; 0x98badcfe; 0x10325476].
Definition MD5_spec (msg : list Z) : list Z :=
  flat_map (little_endian 4) (fold_left compress5 (blocks 64 (padded (little_endian 8) msg)) iv5).

(* ------------------------------------------------------------------ SHA-3 *)
(** A state is 25 lanes of 64 bits; lane (x, y) is element 5 y + x. *)
Definition lane (A : list Z) (x y : nat) : Z := nth (5 * (y mod 5) + x mod 5) A 0.
Definition lanes (f : nat -> nat -> Z) : list Z := map (fun i => f (i mod 5)%nat (i / 5)%nat) (seq 0 25).
Definition rot64 (n x : Z) : Z := Z.lor (Z.shiftl x n mod 2 ^ 64) (Z.shiftr x (64 - n)).
Definition theta (A : list Z) : list Z :=
  let C x := fold_left Z.lxor (map (lane A x) [1; 2; 3; 4]%nat) (lane A x 0) in
  lanes (fun x y => Z.lxor (lane A x y) (Z.lxor (C (x + 4)%nat) (rot64 1 (C (x + 1)%nat)))).
(** The rotation offset of each lane: (t+1)(t+2)/2 mod 64 along the walk (x,y) := (y, 2x+3y) from (1,0) *)
Fixpoint rho_walk (n t x y : nat) (tx ty : nat) : Z :=
  match n with
  | O => 0
  | S k => if (Nat.eqb x tx && Nat.eqb y ty)%bool then Z.of_nat ((t + 1) * (t + 2) / 2 mod 64)
           else rho_walk k (S t) y ((2 * x + 3 * y) mod 5) tx ty
  end.
Definition rho_offset (x y : nat) : Z := rho_walk 24 0 1 0 x y.
Definition rho (A : list Z) : list Z :=
  lanes (fun x y => if Nat.eqb (x + 5 * y) 0 then lane A x y else rot64 (rho_offset x y) (lane A x y)).
Definition pi (A : list Z) : list Z := lanes (fun x y => lane A (x + 3 * y) x).
Definition chi (A : list Z) : list Z :=
  lanes (fun x y => Z.lxor (lane A x y) (Z.land (Z.lxor (lane A (x + 1) y) (2 ^ 64 - 1)) (lane A (x + 2) y))).
(** rc(t): the output of the LFSR x^8 + x^6 + x^5 + x^4 + 1 *)
Definition lfsr (r : Z) : Z := let r' := 2 * r in if Z.testbit r' 8 then Z.lxor r' 0x171 else r'.
Definition rc_bit (t : nat) : bool := Z.testbit (Nat.iter (t mod 255) lfsr 1) 0.
Definition round_constant (ir : nat) : Z :=
  fold_left (fun acc j => if rc_bit (j + 7 * ir) then acc + 2 ^ (2 ^ Z.of_nat j - 1) else acc) (seq 0 7) 0.
Definition iota (A : list Z) (rc : Z) : list Z :=
  lanes (fun x y => if Nat.eqb (x + 5 * y) 0 then Z.lxor (lane A x y) rc else lane A x y).
Definition keccak_f (A : list Z) : list Z :=
  fold_left (fun A ir => iota (chi (pi (rho (theta A)))) (round_constant ir)) (seq 0 24) A.
(** Absorb one block of rate bytes: xor it into the first lanes, then permute *)
Definition absorb (A : list Z) (block : list Z) : list Z :=
  let p := map from_le (blocks 8 block) in
  keccak_f (map (fun i => Z.lxor (nth i A 0) (nth i p 0)) (seq 0 25)).
(** The two domain bits 01 and pad10*1, in bytes *)
Definition pad3 (rate : nat) (msg : list Z) : list Z :=
  let q := (rate - length msg mod rate)%nat in
  match q with
  | 1%nat => msg ++ [134]
  | _ => msg ++ 6 :: repeat 0 (q - 2) ++ [128]
  end.
(** SHA3-d: rate = 200 - 2 d bytes for a digest of d bytes *)
Definition SHA3_spec (d : nat) (msg : list Z) : list Z :=
  let rate := (200 - 2 * d)%nat in
  firstn d (flat_map (little_endian 8) (fold_left absorb (blocks rate (pad3 rate msg)) (repeat 0 25))).

(** The first n bits of a digest (most significant bit of each byte first) are zero *)
Definition leading_zero_bits (n : Z) (d : list Z) : Prop :=
  forall i, 0 <= i < n -> Z.testbit (nth (Z.to_nat (i / 8)) d 0) (7 - i mod 8) = false.
