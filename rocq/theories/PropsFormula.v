(** * Roots and proofs as formulas of the contents; the hash functions
    Statements only; see PropsHist.v for the conventions.  [root_of] and [proof_of] (Formula.v) are defined on
    lists of pairs, with no tree; [default_hasher], [sha256], [keccak] and [sha3] (Hashers.v) are the hashers of
    the crate, applied to the list of the pieces passed to [update]. *)
From Coq Require Import Strings.Byte NArith.
From stdpp Require Import prelude countable gmap sorting strings.
From Verif Require Import Model Bits Spec Logic Safe Claims Live Scenario Codec CodecProofs Fx Sea Forge
  Scenario7 Formula Hashers Blake.

Local Open Scope nat_scope.

(** C82, the root: whatever calls led to it, it is the value of the formula for the contents. *)
Theorem C82_root :
  ∀ (n : nat) (B : backend n) (HB : BackendOk B) (H : list bytes → arr n)
    (V : Type) (enc : V → res bytes) (dec : bytes → res V), 0 < n → codec_ok enc dec →
  ∀ st lg r M L, live B H enc dec st lg r M → no_collision H lg →
  (NoDup L ∧ ∀ k e, (k, e) ∈ L ↔ ∃ v, M !! k = Some v ∧ enc v = Ok e) → root_of H L = Some r.
Proof. intros n B HB H V enc dec Hn Hc. exact (root_formula H Hn B enc dec Hc). Qed.
Print Assumptions C82_root.
Example C82_root_case : root_of (fx 32) [(F2, w2); (F1, w1)] = Some (fr (rocks_db 32)).
Proof.
  apply (C82_root 32 (rocks_db 32) _ (fx 32) _ idc idc (Nat.lt_0_succ 31) idc_ok _ _ _ _ _ rocks_f rocks_f_nc). exact f_pairs.
Qed.

(** C82, the proofs: the siblings on the way to the key, and nothing else. *)
Theorem C82_proof :
  ∀ (n : nat) (B : backend n) (HB : BackendOk B) (H : list bytes → arr n)
    (V : Type) (enc : V → res bytes) (dec : bytes → res V), 0 < n → codec_ok enc dec →
  ∀ st lg r M L D k v e, live B H enc dec st lg r M → no_collision H lg →
  (NoDup L ∧ ∀ k e, (k, e) ∈ L ↔ ∃ v, M !! k = Some v ∧ enc v = Ok e) →
  M !! k = Some v → enc v = Ok e → 8 * n + 1 ≤ D →
  out B H (generate_inclusion_proof D r k) st = ROk (proof_of H L k e).
Proof. intros n B HB H V enc dec Hn Hc. exact (proof_formula H Hn B enc dec Hc). Qed.
Print Assumptions C82_proof.
Example C82_proof_case : ∃ x, out (rocks_db 32) (fx 32) (generate_inclusion_proof 257 (fr (rocks_db 32)) F1) (fs (rocks_db 32)) =
  ROk (proof_of (fx 32) [(F2, w2); (F1, w1)] F1 w1) ∧ proof_of (fx 32) [(F2, w2); (F1, w1)] F1 w1 = x ∧ length x = 3.
Proof.
  eexists. split; [|split; [reflexivity|vm_compute; reflexivity]].
  apply (C82_proof 32 (rocks_db 32) _ (fx 32) _ idc idc (Nat.lt_0_succ 31) idc_ok _ _ _ _ _ 257 F1 w1 w1 rocks_f rocks_f_nc f_pairs).
  - vm_compute. reflexivity.
  - reflexivity.
  - apply Nat.leb_le. vm_compute. reflexivity.
Qed.

(** C82, the strings: with these hashers it does not matter that a node is hashed in three pieces. *)
Theorem C82_pieces :
  ∀ n cs,
  default_hasher n cs = default_hasher n [concat cs] ∧ sha256 n cs = sha256 n [concat cs] ∧
  keccak n cs = keccak n [concat cs] ∧ sha3 n cs = sha3 n [concat cs] ∧ sea n cs = sea n [concat cs].
Proof. exact pieces. Qed.
Print Assumptions C82_pieces.
Theorem C82_blake :
  ∀ n cs, blake2b_rfc n cs = blake2b_rfc n [concat cs] ∧ blake2b512 n cs = blake2b512 n [concat cs].
Proof. exact blake_concat. Qed.
Print Assumptions C82_blake.
(** The two BLAKE2b features give different roots. *)
Example C82_blake_case : ∃ a b, blake2b_rfc 32 (data_in F1 w1) = Ok a ∧ blake2b512 32 (data_in F1 w1) = Ok b ∧ a ≠ b ∧
  blake2b_rfc 32 [concat (data_in F1 w1)] = Ok a.
Proof. eexists _, _. split; [vm_compute; reflexivity|]. split; [vm_compute; reflexivity|]. split; [discriminate|vm_compute; reflexivity]. Qed.
(** With SHA-3 and keys of 32 bytes: the root of two pairs, computed with another implementation of SHA-3 as
    h("b" ++ h("l" ++ F1 ++ h("d" ++ F1 ++ w1)) ++ h("l" ++ F2 ++ h("d" ++ F2 ++ w2))). *)
Example C82_sha3_case : out (hash_db 32) (λ cs, mkarr 32 (sha3 32 cs)) (insert idc 257 None [F1; F2] [w1; w2]) (b_init (hash_db 32)) =
  ROk (mkarr 32
    [xd4; x03; xfb; x60; xa2; x02; xe0; x31; x6f; x9f; xd4; xea; xe2; x40; x46; xb3; xfa; x0b; xe9; x61; x5a; x80; xa6; xf4; xc4; x52; x99; x63; x49; xfa; xea; xb7]).
Proof. vm_compute. reflexivity. Qed.

(** C82, the strings, with FxHash: hashing the concatenation gives another location. *)
Theorem C82_fxhash_refuted :
  ∃ (k : arr 32) (v : bytes), fx 32 (data_in k v) ≠ fx 32 [concat (data_in k v)].
Proof. exact fx_pieces. Qed.
Print Assumptions C82_fxhash_refuted.

(** C37, with the hash functions: the digest cut to N bytes or padded with zeros; Keccak and SHA-3 give as many
    bytes as asked for, and more bytes only extend them. *)
Theorem C37_hashers :
  ∀ n cs,
  default_hasher n cs = Ok (resize n x00 (le_bytes 8 (sip_digest 0 0 cs))) ∧
  sha256 n cs = Ok (resize n x00 (sha256_digest cs)) ∧ length (sha256_digest cs) = 32 ∧
  length (keccak n cs) = n ∧ (∀ m, m ≤ n → keccak m cs = take m (keccak n cs)) ∧
  length (sha3 n cs) = n ∧ (∀ m, m ≤ n → sha3 m cs = take m (sha3 n cs)).
Proof. exact hashers_length. Qed.
Print Assumptions C37_hashers.
Example C37_hashers_case : take 4 (keccak 200 [abc]) = [x4e; x03; x65; x7a] ∧ length (keccak 200 [abc]) = 200.
Proof. split; [vm_compute; reflexivity|]. exact (proj1 (proj2 (proj2 (proj2 (C37_hashers 200 [abc]))))). Qed.

(** C37, BLAKE2b: N bytes, a panic for N = 0 and N > 64 with the feature [blake2-rfc]; the digest of 64 bytes cut
    or padded with the feature [blake2b]. *)
Theorem C37_blake2b :
  ∀ n cs,
  (1 ≤ n ≤ 64 → blake2b_rfc n cs = Ok (bl_digest n cs) ∧ length (bl_digest n cs) = n) ∧
  (¬ (1 ≤ n ≤ 64) → blake2b_rfc n cs = Pan) ∧
  blake2b512 n cs = Ok (resize n x00 (bl_digest 64 cs)) ∧ length (bl_digest 64 cs) = 64.
Proof. exact blake_length. Qed.
Print Assumptions C37_blake2b.
Example C37_blake2b_case : blake2b_rfc 65 [abc] = Pan ∧ ∃ b, blake2b_rfc 4 [abc] = Ok b ∧ length b = 4.
Proof.
  split; [apply (proj1 (proj2 (C37_blake2b 65 [abc]))); lia|]. eexists. apply (proj1 (C37_blake2b 4 [abc])). lia.
Qed.
