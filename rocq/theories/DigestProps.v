(** Properties C16 (chunked digests), C17 (SHA-3) and C47 (proof of work). *)
From Coq Require Import ZArith List Bool Lia.
Import ListNotations.
From Verif Require Import Bits UtfModel CodecSpec XxteaModel DigestModel DigestSpec DigestProofs DigestProofs2 DigestProofs3.
Local Open Scope Z_scope.

(** C16.  Init, any number of updates, final: the digest is the standard's digest of the concatenation,
    whatever the uninitialised buffer held. *)
Theorem sha1_is_sha1 : forall junk chunks, length junk = 64%nat -> bytes (concat chunks) ->
  sha1_digest junk chunks = SHA1_spec (concat chunks).
Proof. exact sha1_digest_ok. Qed.
Theorem sha256_is_sha256 : forall junk chunks, length junk = 64%nat -> bytes (concat chunks) ->
  sha256_digest junk chunks = SHA256_spec (concat chunks).
Proof. exact sha256_digest_ok. Qed.
(** Each piece is shorter than 2^32 bytes because jsi_MD5Update takes an unsigned int *)
Theorem md5_is_md5 : forall junk chunks, length junk = 64%nat -> bytes (concat chunks) ->
  Forall (fun m => Z.of_nat (length m) < 2 ^ 32) chunks -> md5_digest junk chunks = MD5_spec (concat chunks).
Proof. exact md5_digest_ok. Qed.

(** Test vectors ("abc"; the empty message): the specification is the real thing *)
Example sha1_abc : SHA1_spec [97; 98; 99] =
  [0xa9;0x99;0x3e;0x36;0x47;0x06;0x81;0x6a;0xba;0x3e;0x25;0x71;0x78;0x50;0xc2;0x6c;0x9c;0xd0;0xd8;0x9d].
Proof. vm_compute. reflexivity. Qed.
Example sha256_abc : SHA256_spec [97; 98; 99] =
  [0xba;0x78;0x16;0xbf;0x8f;0x01;0xcf;0xea;0x41;0x41;0x40;0xde;0x5d;0xae;0x22;0x23;
   0xb0;0x03;0x61;0xa3;0x96;0x17;0x7a;0x9c;0xb4;0x10;0xff;0x61;0xf2;0x00;0x15;0xad].
Proof. vm_compute. reflexivity. Qed.
Example md5_empty : MD5_spec [] = [0xd4;0x1d;0x8c;0xd9;0x8f;0x00;0xb2;0x04;0xe9;0x80;0x09;0x98;0xec;0xf8;0x42;0x7e].
Proof. vm_compute. reflexivity. Qed.
Example sha3_256_abc : firstn 4 (SHA3_spec 32 [97; 98; 99]) = [0x3a; 0x98; 0x5d; 0xa7].
Proof. vm_compute. reflexivity. Qed.
Example chunked_ex : let m := map Z.of_nat (seq 0 200) in
  sha256_digest (repeat 9 64) [firstn 7 m; []; skipn 7 m] = SHA256_spec m /\
  md5_digest (repeat 9 64) [firstn 70 m; firstn 60 (skipn 70 m); skipn 130 m] = MD5_spec m.
Proof. vm_compute. split; reflexivity. Qed.

(** The hash command (one call, digest[1024] uninitialised): sha256, sha1, md5 *)
Theorem hash_command_right : forall junk dig0 msg, length junk = 64%nat -> length dig0 = 1024%nat -> bytes msg ->
  Z.of_nat (length msg) < 2 ^ 32 ->
  crypto_hash junk dig0 SHA2_256 msg = SHA256_spec msg /\
  crypto_hash junk dig0 SHA1 msg = SHA1_spec msg /\
  crypto_hash junk dig0 MD5 msg = MD5_spec msg.
Proof.
  intros junk dig0 msg HJ HD HB HL. unfold crypto_hash.
  rewrite sha1_is_sha1, sha256_is_sha256, md5_is_md5 by (cbn [concat]; rewrite ?app_nil_r; auto).
  cbn [concat]. rewrite app_nil_r.
  assert (G : forall n d, length d = n -> (n <= 1024)%nat -> firstn n (copy_at 0 d dig0) = d).
  { intros n d L1 L2. rewrite copy_at_eq by lia. rewrite firstn_O. cbn [app]. rewrite <- L1.
    rewrite firstn_app, Nat.sub_diag, firstn_O, app_nil_r. apply firstn_all. }
  assert (FL : forall (f : Z -> list Z) l, (forall x, length (f x) = 4%nat) -> length (flat_map f l) = (4 * length l)%nat).
  { intros f l Hf. induction l as [|x l IH]; cbn [flat_map length]; auto. rewrite app_length, Hf, IH. lia. }
  assert (K : forall n (cp : list Z -> list Z -> list Z) bl st, (forall st d, length st = n -> length (cp st d) = n) ->
     length st = n -> length (fold_left cp bl st) = n).
  { intros n cp bl. induction bl as [|b bl IH]; intros st H1 H2; auto. rewrite fl_cons. apply IH; auto. }
  repeat split; apply G; try lia; unfold SHA1_spec, SHA256_spec, MD5_spec; rewrite FL by reflexivity.
  - rewrite (K 8%nat); auto. intros; apply compress256_len; auto.
  - rewrite (K 5%nat); auto. intros; apply compress1_len; auto.
  - rewrite (K 4%nat); auto. intros; apply compress5_len; auto.
Qed.

(** C17.  SHA-3: the digest depends only on the concatenation, for every message. *)
Theorem sha3_chunking : forall t c1 c2, concat c1 = concat c2 -> sha3_chunks t c1 = sha3_chunks t c2.
Proof. exact sha3_chunking_ok. Qed.
(** It is the FIPS 202 digest whenever the part of the last complete block beyond the final partial block
    is zero; in particular for every message shorter than a block. *)
Theorem sha3_is_sha3 : forall t chunks whole rest q,
  let '(rate, d) := sha3_params t in
  concat chunks = whole ++ rest -> length whole = (rate * q)%nat -> (length rest < rate)%nat ->
  skipn (S (length rest)) (last (blocks rate whole) (repeat 0 rate)) = repeat 0 (rate - S (length rest)) ->
  sha3_chunks t chunks = SHA3_spec d (concat chunks).
Proof. exact sha3_zero_ok. Qed.
Theorem sha3_short_is_sha3 : forall t chunks,
  let '(rate, d) := sha3_params t in (length (concat chunks) < rate)%nat -> sha3_chunks t chunks = SHA3_spec d (concat chunks).
Proof. intros t chunks. pose proof (sha3_short_ok t chunks) as H. destruct (sha3_params t) as [rate d]. exact H. Qed.
(** In general it is wrong: SHA3_Final does not clear what the last complete block left in the buffer. *)
Theorem sha3_long_message_refuted : exists msg, length msg = 136%nat /\ bytes msg /\ sha3_chunks 1 [msg] <> SHA3_spec 32 msg.
Proof.
  exists (repeat 1 136). split; [reflexivity|]. split; [apply Forall_forall; intros x Hx; apply repeat_spec in Hx; subst; unfold byte; lia|].
  vm_compute. discriminate.
Qed.
(** The type numbers of the command and of SHA3_Init disagree, and the length returned is always 64:
    asking for sha3_256 gives SHA3-512, sha3_384 gives SHA3-256 and sha3_512 gives SHA3-384, the last three
    followed by uninitialised memory. *)
Theorem sha3_types_mixed_up_refuted : forall junk dig0 msg, length dig0 = 1024%nat -> (length msg < 72)%nat ->
  crypto_hash junk dig0 SHA3_256 msg = SHA3_spec 64 msg /\
  crypto_hash junk dig0 SHA3_384 msg = SHA3_spec 32 msg ++ firstn 32 (skipn 32 dig0) /\
  crypto_hash junk dig0 SHA3_512 msg = SHA3_spec 48 msg ++ firstn 16 (skipn 48 dig0) /\
  crypto_hash junk dig0 SHA3_224 msg = SHA3_spec 28 msg ++ firstn 36 (skipn 28 dig0).
Proof. exact sha3_types_ok. Qed.

(** C47.  The proof-of-work search: the nonce returned is the least one (from 0) whose digest starts with
    [strength] zero bits. *)
Theorem proof_of_work : forall dg msg strength fuel nonce d,
  (forall m, length (dg m) = 32%nat /\ bytes (dg m)) -> 0 < strength <= 256 ->
  pow_loop fuel dg msg strength 0 = Some (nonce, d) ->
  d = dg (msg ++ nonce_text nonce) /\ leading_zero_bits strength d /\
  (Z.of_nat fuel < 2 ^ 32 -> forall n, 0 <= n < nonce -> ~ leading_zero_bits strength (dg (msg ++ nonce_text n))).
Proof. exact pow_ok. Qed.
Example proof_of_work_ex : exists nonce d, pow_loop 1000 SHA256_spec [97; 98] 6 0 = Some (nonce, d) /\ 0 < nonce /\ nth 0 d 0 <= 3.
Proof. eexists. eexists. split; [vm_compute; reflexivity|]. split; [reflexivity|]. cbn [nth]. discriminate. Qed.
Print Assumptions sha1_is_sha1.
Print Assumptions sha256_is_sha256.
Print Assumptions md5_is_md5.
Print Assumptions hash_command_right.
Print Assumptions sha3_chunking.
Print Assumptions sha3_is_sha3.
Print Assumptions sha3_short_is_sha3.
Print Assumptions sha3_long_message_refuted.
Print Assumptions sha3_types_mixed_up_refuted.
Print Assumptions proof_of_work.
