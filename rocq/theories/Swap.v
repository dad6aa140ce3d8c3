(** * Other hashers on the same database *)
From Coq Require Import Strings.Byte NArith.
From stdpp Require Import prelude countable gmap sorting strings.
From Verif Require Import Model Bits Codec CodecProofs Work Fx Sea Hashers Blake Digests.

Local Open Scope nat_scope.

(** A hasher of the crate as the function on pieces that the tree is built with. *)
Definition as_hash (h : nat → list bytes → res bytes) (n : nat) (cs : list bytes) : arr n :=
  mkarr n (match h n cs with Ok b => b | _ => [] end).

(** What a call does depends on the hasher only through the values it asks for. *)
Section Swap.
  Context {n : nat} (B : backend n) (H H' : list bytes → arr n).
  Lemma run_same {A} (p : prog n A) st : (∀ cs, cs ∈ hlog B H p st → H' cs = H cs) → run B H' p st = run B H p st.
  Proof using.
    unfold hlog. revert st. induction p as [a|e| | |cs k IH|l k IH|l nd k IH|l k IH|k IH]; intros st Hc; cbn [run] in *; try done.
    - destruct (run B H (k (H cs)) st) as [[o st'] lg] eqn:E. cbn [snd] in Hc.
      rewrite (Hc cs) by apply elem_of_list_here. rewrite (IH (H cs) st).
      + by rewrite E.
      + rewrite E. intros cs' Hcs'. apply Hc. by apply elem_of_list_further.
    - by apply IH.
    - by apply IH.
    - by apply IH.
    - by apply IH.
  Qed.
  Lemma run_hashless {A} (p : prog n A) st : hlog B H p st = [] → run B H' p st = run B H p st.
  Proof using. intros Hl. apply run_same. rewrite Hl. intros cs Hcs. by apply elem_of_nil in Hcs. Qed.
  Lemma run_equal {A} (p : prog n A) st : (∀ cs, H' cs = H cs) → run B H' p st = run B H p st.
  Proof using. intros Hc. by apply run_same. Qed.
End Swap.

Lemma swap_reads {n} (B : backend n) (H H' : list bytes → arr n) {V} (dec : bytes → res V) st D root (ks : list (arr n)) k fuel :
  run B H' (get dec D root ks) st = run B H (get dec D root ks) st ∧
  run B H' (get_one dec D root k) st = run B H (get_one dec D root k) st ∧
  run B H' (remove fuel root) st = run B H (remove fuel root) st.
Proof.
  split_and!; apply run_hashless.
  - apply length_zero_iff_nil. destruct (bw_run _ _ _ _ _ _ _ B H st (get_fw dec 1 1 1 D root ks)) as [H1 H0]. lia.
  - apply length_zero_iff_nil. unfold get_one.
    destruct (bw_run _ _ _ _ _ _ _ B H st (get_one_loop_fw dec 1 1 1 D (D + 2) k 0 false root ltac:(lia) ltac:(lia))) as [H1 H0]. lia.
  - apply (remove_loop_work B H fuel [root] st).
Qed.
Lemma rust_sha3_eq n cs : n ≤ 32 → rust_sha3 n cs = Ok (sha3 n cs).
Proof. apply kc_digest_cut. Qed.
Lemma rust_keccak_eq n cs : n ≤ 32 → rust_keccak n cs = Ok (keccak n cs).
Proof. apply kc_digest_cut. Qed.

Lemma swap_sha2 {n} (B : backend n) {A} (p : prog n A) st :
  run B (as_hash rust_sha2 n) p st = run B (as_hash sha256 n) p st.
Proof. apply run_equal. intros cs. unfold as_hash. by rewrite rust_sha2_eq. Qed.
Lemma swap_sha3 {n} (B : backend n) {A} (p : prog n A) st : n ≤ 32 →
  run B (as_hash rust_sha3 n) p st = run B (as_hash (λ n cs, Ok (sha3 n cs)) n) p st ∧
  run B (as_hash rust_keccak n) p st = run B (as_hash (λ n cs, Ok (keccak n cs)) n) p st.
Proof.
  intros Hn. split; apply run_equal; intros cs; unfold as_hash; by rewrite ?rust_sha3_eq, ?rust_keccak_eq.
Qed.
Lemma swap_blake (B : backend 64) {A} (p : prog 64 A) st :
  run B (as_hash blake2b512 64) p st = run B (as_hash blake2b_rfc 64) p st.
Proof. apply run_equal. intros cs. unfold as_hash. by rewrite blake_64. Qed.
(** Every location of more than 32 bytes is another one, unless SHA-3 happens to go on with zeros. *)
Lemma sha3_long n cs : 32 < n → (∃ i, 32 ≤ i < n ∧ sha3 n cs !! i ≠ Some x00) →
  rust_sha3 n cs ≠ Ok (sha3 n cs).
Proof.
  intros Hn (i & Hi & Hne). unfold rust_sha3. rewrite kc_digest_pad by lia. intros [= He]. apply Hne.
  rewrite <- He. rewrite lookup_app_r by (rewrite take_length, kc_digest_length; lia).
  rewrite take_length, kc_digest_length. apply lookup_replicate. split; [done|lia].
Qed.
