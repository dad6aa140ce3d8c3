(** * All the hash functions; two implementations of one of them
    Statements only; see PropsHist.v for the conventions.  [md2] ... [groestl], [rust_sha2], [rust_sha3],
    [rust_keccak] (Digests.v) are the hashers of the feature [digest], applied to the list of the pieces passed to
    [update]; [as_hash h n] is such a hasher as the function a tree with keys of [n] bytes uses. *)
From Coq Require Import Strings.Byte NArith.
From stdpp Require Import prelude countable gmap sorting strings.
From Verif Require Import Model Bits Spec Logic Scenario Codec CodecProofs Hashers Blake Digests Swap Scenario11.

Local Open Scope nat_scope.

(** C37, the other hashers: the digest cut to N bytes or padded with zeros. *)
Theorem C37_digests :
  ∀ n cs,
  md2 n cs = Ok (resize n x00 (md2_digest cs)) ∧ length (md2_digest cs) = 16 ∧
  md4 n cs = Ok (resize n x00 (md4_digest cs)) ∧ length (md4_digest cs) = 16 ∧
  md5 n cs = Ok (resize n x00 (md5_digest cs)) ∧ length (md5_digest cs) = 16 ∧
  sha1 n cs = Ok (resize n x00 (sha1_digest cs)) ∧ length (sha1_digest cs) = 20 ∧
  ripemd160 n cs = Ok (resize n x00 (rmd160_digest cs)) ∧ length (rmd160_digest cs) = 20 ∧
  ripemd320 n cs = Ok (resize n x00 (rmd320_digest cs)) ∧ length (rmd320_digest cs) = 40 ∧
  whirlpool n cs = Ok (resize n x00 (wh_digest cs)) ∧ length (wh_digest cs) = 64 ∧
  groestl n cs = Ok (resize n x00 (gr_digest cs)) ∧ length (gr_digest cs) = 32.
Proof. exact digests_length. Qed.
Print Assumptions C37_digests.
(** The location of [abc] with MD5 and N = 20. *)
Example C37_digests_case : md5 20 [abc] =
  Ok [x90; x01; x50; x98; x3c; xd2; x4f; xb0; xd6; x96; x3f; x7d; x28; xe1; x7f; x72; x00; x00; x00; x00].
Proof. vm_compute. reflexivity. Qed.

(** C82, the strings: with these hashers it does not matter that a node is hashed in three pieces. *)
Theorem C82_digests :
  ∀ n cs,
  md2 n cs = md2 n [concat cs] ∧ md4 n cs = md4 n [concat cs] ∧ md5 n cs = md5 n [concat cs] ∧
  sha1 n cs = sha1 n [concat cs] ∧ ripemd160 n cs = ripemd160 n [concat cs] ∧ ripemd320 n cs = ripemd320 n [concat cs] ∧
  whirlpool n cs = whirlpool n [concat cs] ∧ groestl n cs = groestl n [concat cs].
Proof. exact digests_concat. Qed.
Print Assumptions C82_digests.
(** The root of two pairs with SHA-1 and keys of 20 bytes, computed with another implementation of SHA-1. *)
Example C82_sha1_case :
  out (rocks_db 20) (as_hash sha1 20) (insert idc 161 None [E1; E2] [abc; []]) (b_init (rocks_db 20)) =
  ROk (mkarr 20 [xdc; x85; x71; xf8; x8e; x55; xb6; x2b; x7e; xf8; x47; xa9; xbd; x9c; xab; x44; x64; x15; x0f; x32]).
Proof. vm_compute. reflexivity. Qed.

(** C86, SHA-256: the features [sha2] and [rust_sha2] cannot be told apart, whatever the database and the call. *)
Theorem C86_sha2 :
  ∀ (n : nat) (B : backend n) (A : Type) (p : prog n A) st,
  run B (as_hash rust_sha2 n) p st = run B (as_hash sha256 n) p st.
Proof. intros n B A. exact (swap_sha2 B). Qed.
Print Assumptions C86_sha2.
Example C86_sha2_case : is_ok (out (hash_db 40) (as_hash sha256 40) (insert idc 321 None [L1] [abc]) (b_init (hash_db 40))) = true.
Proof. vm_compute. reflexivity. Qed.

(** C86, SHA-3 and Keccak.  Missing: N > 32, where it is false. *)
Theorem C86_sha3_partial :
  ∀ (n : nat) (B : backend n) (A : Type) (p : prog n A) st, n ≤ 32 →
  run B (as_hash rust_sha3 n) p st = run B (as_hash (λ n cs, Ok (sha3 n cs)) n) p st ∧
  run B (as_hash rust_keccak n) p st = run B (as_hash (λ n cs, Ok (keccak n cs)) n) p st.
Proof. intros n B A. exact (swap_sha3 B). Qed.
Print Assumptions C86_sha3_partial.
(** C86 is false of SHA-3 and Keccak with N = 40: the same insertion gives another root. *)
Theorem C86_sha3_refuted :
  ∃ (k : arr 40) (v : bytes), let p := insert idc 321 None [k] [v] in let st := b_init (hash_db 40) in
  out (hash_db 40) (as_hash rust_sha3 40) p st ≠ out (hash_db 40) (as_hash (λ n cs, Ok (sha3 n cs)) 40) p st ∧
  out (hash_db 40) (as_hash rust_keccak 40) p st ≠ out (hash_db 40) (as_hash (λ n cs, Ok (keccak n cs)) 40) p st.
Proof. exact sha3_roots. Qed.
Print Assumptions C86_sha3_refuted.

(** C86, BLAKE2b.  Missing: N other than 64, where it is false. *)
Theorem C86_blake_partial :
  ∀ (B : backend 64) (A : Type) (p : prog 64 A) st,
  run B (as_hash blake2b512 64) p st = run B (as_hash blake2b_rfc 64) p st.
Proof. intros B A. exact (swap_blake B). Qed.
Print Assumptions C86_blake_partial.
(** C86 is false of BLAKE2b with N = 32: a proof made by a build with the feature [blake2b] for a tree stored by a
    build with the feature [blake2-rfc] is rejected, while the tree's own build accepts its proof. *)
Theorem C86_blake_refuted :
  ∃ (k : arr 32) (v : bytes) r st q q',
  out (rocks_db 32) (as_hash blake2b_rfc 32) (insert idc 257 None [k] [v]) (b_init (rocks_db 32)) = ROk r ∧
  fin (rocks_db 32) (as_hash blake2b_rfc 32) (insert idc 257 None [k] [v]) (b_init (rocks_db 32)) = st ∧
  out (rocks_db 32) (as_hash blake2b_rfc 32) (generate_inclusion_proof 257 r k) st = ROk q ∧
  out (rocks_db 32) (as_hash blake2b_rfc 32) (verify_inclusion_proof idc r k v q) st = ROk tt ∧
  out (rocks_db 32) (as_hash blake2b512 32) (generate_inclusion_proof 257 r k) st = ROk q' ∧
  out (rocks_db 32) (as_hash blake2b512 32) (verify_inclusion_proof idc r k v q') st = RErr "Proof is invalid".
Proof. exact blake_proofs. Qed.
Print Assumptions C86_blake_refuted.

(** C86, what no choice of hasher changes: what is read from a database, and what a removal does to it. *)
Theorem C86_reads :
  ∀ (n : nat) (B : backend n) (H H' : list bytes → arr n) (V : Type) (dec : bytes → res V) st D root (ks : list (arr n)) k fuel,
  run B H' (get dec D root ks) st = run B H (get dec D root ks) st ∧
  run B H' (get_one dec D root k) st = run B H (get_one dec D root k) st ∧
  run B H' (remove fuel root) st = run B H (remove fuel root) st.
Proof. intros n B H H' V dec. exact (swap_reads B H H' dec). Qed.
Print Assumptions C86_reads.
(** A value stored by a build with SHA-3 and read by a build with MD5. *)
Example C86_reads_case :
  let H := as_hash (λ n cs, Ok (sha3 n cs)) 20 in let p := insert idc 161 None [E1; E2] [abc; []] in
  ∃ r, out (rocks_db 20) H p (b_init (rocks_db 20)) = ROk r ∧
  out (rocks_db 20) (as_hash md5 20) (get_one idc 161 r E1) (fin (rocks_db 20) H p (b_init (rocks_db 20))) = ROk (Some abc).
Proof. eexists. split; [apply (the_root_ok _ E1); vm_compute; reflexivity|]. vm_compute. reflexivity. Qed.
