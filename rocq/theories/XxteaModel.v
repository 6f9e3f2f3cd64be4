(** Model of the encryption of src/jsiCrypto.c: jsi_btea (XXTEA) and Jsi_Encrypt. *)
From Coq Require Import ZArith List Bool.
Import ListNotations.
From Verif Require Import UtfModel.
Local Open Scope Z_scope.

Definition W32 : Z := 4294967296.
Definition add32 (a b : Z) : Z := (a + b) mod W32.
Definition sub32 (a b : Z) : Z := (a - b) mod W32.
(** y<<k on uint32_t *)
Definition shl32 (a k : Z) : Z := Z.shiftl a k mod W32.

Definition DELTA : Z := 0x9e3779b9.

(** _JSI_XXTEA_MX, jsiCrypto.c:854 *)
Definition mx (key : list Z) (sum e y z : Z) (p : nat) : Z :=
  Z.lxor (add32 (Z.lxor (Z.shiftr z 5) (shl32 y 2)) (Z.lxor (Z.shiftr y 3) (shl32 z 4)))
         (add32 (Z.lxor sum y)
                (Z.lxor (at_ key (Z.to_nat (Z.lxor (Z.land (Z.of_nat p) 7) e))) z)).

(** v[p] = x *)
Fixpoint set_nth (p : nat) (x : Z) (v : list Z) : list Z :=
  match v, p with
  | [], _ => []
  | _ :: r, O => x :: r
  | a :: r, S q => a :: set_nth q x r
  end.

(** One iteration of the inner loop of the coding part, 867-870, on (v, z) *)
Definition enc_inner (key : list Z) (sum e : Z) (vz : list Z * Z) (p : nat) : list Z * Z :=
  let '(v, z) := vz in
  let y := at_ v (p + 1) in
  let z' := add32 (at_ v p) (mx key sum e y z p) in
  (set_nth p z' v, z').
(** The body of the outer loop after sum += DELTA, 866-873; n = length v *)
Definition enc_round (key : list Z) (sum : Z) (vz : list Z * Z) : list Z * Z :=
  let n := length (fst vz) in
  let e := Z.land (Z.shiftr sum 2) 7 in
  let '(v, z) := fold_left (enc_inner key sum e) (seq 0 (n - 1)) vz in
  let y := at_ v 0 in
  let z' := add32 (at_ v (n - 1)) (mx key sum e y z (n - 1)) in
  (set_nth (n - 1) z' v, z').
(** do .. while (--rounds) *)
Fixpoint enc_rounds (rounds : nat) (key : list Z) (sum : Z) (vz : list Z * Z) : list Z * Z :=
  match rounds with
  | O => vz
  | S r => let sum' := add32 sum DELTA in enc_rounds r key sum' (enc_round key sum' vz)
  end.

(** Decoding part, 876-888, on (v, y): p runs from n-1 down to 1 *)
Definition dec_inner (key : list Z) (sum e : Z) (vy : list Z * Z) (p : nat) : list Z * Z :=
  let '(v, y) := vy in
  let z := at_ v (p - 1) in
  let y' := sub32 (at_ v p) (mx key sum e y z p) in
  (set_nth p y' v, y').
Definition dec_round (key : list Z) (sum : Z) (vy : list Z * Z) : list Z * Z :=
  let n := length (fst vy) in
  let e := Z.land (Z.shiftr sum 2) 7 in
  let '(v, y) := fold_left (dec_inner key sum e) (rev (seq 1 (n - 1))) vy in
  let z := at_ v (n - 1) in
  let y' := sub32 (at_ v 0) (mx key sum e y z 0) in
  (set_nth 0 y' v, y').
Fixpoint dec_rounds (rounds : nat) (key : list Z) (sum : Z) (vy : list Z * Z) : list Z * Z :=
  match rounds with
  | O => vy
  | S r => dec_rounds r key (sub32 sum DELTA) (dec_round key sum vy)
  end.

(** jsi_btea, jsiCrypto.c:856-890, n = length v or - length v *)
Definition rounds_of (n : nat) : nat := (6 + 52 / n)%nat.
Definition btea (decode : bool) (v : list Z) (key : list Z) : list Z :=
  let n := length v in
  if (n <=? 1)%nat then v
  else if decode
  then fst (dec_rounds (rounds_of n) key (Z.of_nat (rounds_of n) * DELTA mod W32) (v, at_ v 0))
  else fst (enc_rounds (rounds_of n) key 0 (v, at_ v (n - 1))).

(** The bytes of a buffer seen as little-endian 32-bit words (the casts at line 923) *)
Fixpoint to_words (s : list Z) : list Z :=
  match s with
  | a :: b :: c :: d :: r => (a + b * 256 + c * 65536 + d * 16777216) :: to_words r
  | _ => []
  end.
Definition word_bytes (w : Z) : list Z := [w mod 256; w / 256 mod 256; w / 65536 mod 256; w / 16777216 mod 256].
Definition of_words (v : list Z) : list Z := flat_map word_bytes v.

(** Jsi_Encrypt, jsiCrypto.c:893-934, where [key] are the eight words of the 32-byte key (the key
    itself or its SHA-256 digest, 918-921).  [None] is the error return.  The dynamic string is
    its list of bytes (C07; lengths far below the allocation limit). *)
Definition crypt_encrypt (key : list Z) (s : list Z) : option (list Z) :=
  let nlen := length s in
  if (nlen <? 2)%nat then None
  else
    let pad := ((4 - nlen mod 4) mod 4)%nat in                (* the loop 905-909 *)
    let buf := s ++ repeat 0 pad in
    Some (of_words (btea false (to_words buf) key) ++ [Z.of_nat pad]).
(** The pad byte is read as a (signed) char and made unsigned; olen < 0 returns what is there. *)
Definition crypt_decrypt (key : list Z) (s : list Z) : option (list Z) :=
  let nlen := length s in
  if (nlen <? 2)%nat then None
  else
    let b := at_ s (nlen - 1) in
    let pad := if b <? 128 then b else b - 256 + W32 in
    let buf := firstn (nlen - 1) s in
    if negb ((nlen - 1) mod 4 =? 0)%nat then None
    else
      let out := of_words (btea true (to_words buf) key) in
      let olen := (Z.of_nat (length out) - pad) mod W32 in
      let olen := if olen <? 2147483648 then olen else olen - W32 in       (* int olen, 928 *)
      if olen <? 0 then Some out
      else Some (firstn (Z.to_nat olen) out).
