(** Specification of the byte codecs: RFC 4648, CRC-32, by plain arithmetic. *)
From Coq Require Import ZArith List.
Import ListNotations.
Local Open Scope Z_scope.

Definition byte (b : Z) : Prop := 0 <= b < 256.
Definition bytes (s : list Z) : Prop := Forall byte s.
(** Strings of the language: bytes without NUL. *)
Definition strbytes (s : list Z) : Prop := Forall (fun b => 0 < b < 256) s.

(** RFC 4648, table 1: the character for a 6-bit value *)
Definition b64char (v : Z) : Z :=
  if v <? 26 then 65 + v else if v <? 52 then 97 + (v - 26) else if v <? 62 then 48 + (v - 52)
  else if v =? 62 then 43 else 47.
(** RFC 4648, section 4: 24-bit groups *)
Definition sextets (n : Z) : list Z := [n / 262144; n / 4096 mod 64; n / 64 mod 64; n mod 64].
Fixpoint rfc4648 (s : list Z) : list Z :=
  match s with
  | a :: b :: c :: r => map b64char (sextets (a * 65536 + b * 256 + c)) ++ rfc4648 r
  | [a; b] => map b64char (firstn 3 (sextets (a * 65536 + b * 256))) ++ [61]
  | [a] => map b64char (firstn 2 (sextets (a * 65536))) ++ [61; 61]
  | [] => []
  end.
(** A newline after every full line of 72 characters *)
Inductive lines72 : list Z -> list Z -> Prop :=
| l72_last : forall l, (length l < 72)%nat -> lines72 l l
| l72_more : forall a l o, length a = 72%nat -> lines72 l o -> lines72 (a ++ l) (a ++ [10] ++ o).

(** base64 characters, and characters a decoder ignores *)
Definition b64_alpha (c : Z) : Prop := exists v, 0 <= v < 64 /\ c = b64char v.
Definition b64_junk (c : Z) : Prop := 0 < c < 128 /\ c <> 61 /\ ~ b64_alpha c.
(** t is l with ignorable characters put in anywhere *)
Inductive interspersed : list Z -> list Z -> Prop :=
| is_nil : interspersed [] []
| is_keep : forall c l t, interspersed l t -> interspersed (c :: l) (c :: t)
| is_junk : forall c l t, b64_junk c -> interspersed l t -> interspersed l (c :: t).

(** CRC-32 (ITU-T V.42, IEEE 802.3, zlib), one bit at a time, least significant bit first *)
Definition crc_bit (crc bit : Z) : Z :=
  if (crc + bit) mod 2 =? 1 then Z.lxor (crc / 2) 0xEDB88320 else crc / 2.
Definition byte_bits (b : Z) : list Z := map (fun i => b / 2 ^ i mod 2) [0;1;2;3;4;5;6;7].
Definition crc_bitserial (crc : Z) (s : list Z) : Z := fold_left crc_bit (flat_map byte_bits s) crc.

(** Lower-case hexadecimal *)
Definition hexchar (v : Z) : Z := if v <? 10 then 48 + v else 97 + (v - 10).
Definition hex (s : list Z) : list Z := flat_map (fun b => [hexchar (b / 16); hexchar (b mod 16)]) s.
