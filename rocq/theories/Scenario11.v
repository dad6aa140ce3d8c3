(** * Trees of the other hashers *)
From Coq Require Import Strings.Byte NArith.
From stdpp Require Import prelude countable gmap sorting strings.
From Verif Require Import Model Bits Scenario Codec CodecProofs Hashers Blake Digests Swap.

Local Open Scope nat_scope.

Definition E1 : arr 20 := mkarr 20 (replicate 20 x11).
Definition E2 : arr 20 := mkarr 20 (replicate 20 x91).
Definition L1 : arr 40 := mkarr 40 (replicate 40 x11).
Definition D1 : arr 32 := mkarr 32 (replicate 32 x11).

Lemma sha3_roots :
  ∃ (k : arr 40) (v : bytes), let p := insert idc 321 None [k] [v] in let st := b_init (hash_db 40) in
  out (hash_db 40) (as_hash rust_sha3 40) p st ≠ out (hash_db 40) (as_hash (λ n cs, Ok (sha3 n cs)) 40) p st ∧
  out (hash_db 40) (as_hash rust_keccak 40) p st ≠ out (hash_db 40) (as_hash (λ n cs, Ok (keccak n cs)) 40) p st.
Proof.
  exists L1, abc. cbv zeta.
  assert (∀ o o' : outcome (arr 40),
    (match o, o' with ROk a, ROk b => bool_decide (arr_list a = arr_list b) | _, _ => true end) = false → o ≠ o') as Hne.
  { intros o o' Hb ->. destruct o'; try done. by rewrite bool_decide_true in Hb. }
  split; apply Hne; vm_compute; reflexivity.
Qed.
Definition bi : prog 32 (arr 32) := insert idc 257 None [D1] [abc].
Definition bs : b_st (rocks_db 32) := fin (rocks_db 32) (as_hash blake2b_rfc 32) bi (b_init (rocks_db 32)).
Definition br : arr 32 := the_root (out (rocks_db 32) (as_hash blake2b_rfc 32) bi (b_init (rocks_db 32))) D1.
Definition the_proof (o : outcome (list (arr 32 * bool))) : list (arr 32 * bool) := match o with ROk q => q | _ => [] end.
Definition bq : list (arr 32 * bool) := the_proof (out (rocks_db 32) (as_hash blake2b_rfc 32) (generate_inclusion_proof 257 br D1) bs).
Definition bq' : list (arr 32 * bool) := the_proof (out (rocks_db 32) (as_hash blake2b512 32) (generate_inclusion_proof 257 br D1) bs).
Lemma the_proof_ok o : is_ok o = true → o = ROk (the_proof o).
Proof. by destruct o. Qed.
Lemma the_root_ok {n} (o : outcome (arr n)) d : is_ok o = true → o = ROk (the_root o d).
Proof. by destruct o. Qed.
Lemma blake_proofs :
  ∃ (k : arr 32) (v : bytes) r st q q',
  out (rocks_db 32) (as_hash blake2b_rfc 32) (insert idc 257 None [k] [v]) (b_init (rocks_db 32)) = ROk r ∧
  fin (rocks_db 32) (as_hash blake2b_rfc 32) (insert idc 257 None [k] [v]) (b_init (rocks_db 32)) = st ∧
  out (rocks_db 32) (as_hash blake2b_rfc 32) (generate_inclusion_proof 257 r k) st = ROk q ∧
  out (rocks_db 32) (as_hash blake2b_rfc 32) (verify_inclusion_proof idc r k v q) st = ROk tt ∧
  out (rocks_db 32) (as_hash blake2b512 32) (generate_inclusion_proof 257 r k) st = ROk q' ∧
  out (rocks_db 32) (as_hash blake2b512 32) (verify_inclusion_proof idc r k v q') st = RErr "Proof is invalid".
Proof.
  exists D1, abc, br, bs, bq, bq'. split; [apply the_root_ok; vm_compute; reflexivity|]. split; [reflexivity|].
  split; [apply the_proof_ok; vm_compute; reflexivity|]. split; [vm_compute; reflexivity|].
  split; [apply the_proof_ok; vm_compute; reflexivity|]. vm_compute. reflexivity.
Qed.
