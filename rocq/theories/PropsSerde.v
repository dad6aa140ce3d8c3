(** * Nodes stored in the other serialization formats
    Statements only; see PropsHist.v for the conventions.  The model is in
    Serde.v: [ser_node]/[de_node] are the [serde] instances, a [format] writes
    and reads documents, [f_enc]/[f_dec] are [TreeNode::encode]/[decode], [frun]
    executes on a RocksDB that holds encoded nodes, [fser] encodes a database. *)
From Coq Require Import Strings.Byte Strings.String NArith.
From stdpp Require Import prelude countable gmap sorting strings.
From Verif Require Import Model Bits Spec Logic Safe Claims Codec CodecProofs Bytes Serde SerdeProofs SerdeTree Cbor
  Scenario Scenario3 Scenario4.

Local Open Scope nat_scope.

Notation HB := (hash_db 2). Notation RB := (rocks_db 2).

(** C72: JSON texts of nodes parse to the documents they were written from, and parsing never panics. *)
Theorem C72_json :
  (∀ (n : nat) (nd : node n), small nd → json_read (json_write (ser_node nd)) = Ok (ser_node nd)) ∧
  (∀ b, json_read b ≠ Pan).
Proof.  split; [exact json_faithful|exact json_no_pan]. Qed.
Print Assumptions C72_json.
Example C72_json_case : json_write (ser_node (Node 3 (VLeaf K1 K2))) =
  name "{""references"":3,""node"":{""Leaf"":{""key"":[0,0],""data"":[0,64]}}}".
Proof. vm_compute. reflexivity. Qed.

(** C72: CBOR texts of nodes parse to the documents they were written from, whatever bytes follow them, and parsing
    never panics. *)
Theorem C72_cbor :
  (∀ (n : nat) (nd : node n) (rest : bytes), small nd →
     cbor_read (cbor_write (ser_node nd) ++ rest) = Ok (ser_node nd)) ∧
  (∀ b, cbor_read b ≠ Pan).
Proof.  split; [intros n nd rest Hs; exact (cbor_roundtrip _ rest (narrow_node nd Hs))|exact cbor_no_pan]. Qed.
Print Assumptions C72_cbor.
Example C72_cbor_case : cbor_write (ser_node (Node 300 (VLeaf K1 K2))) =
  [xa2; x6a] ++ name "references" ++ [x19; x01; x2c; x64] ++ name "node" ++ [xa1; x64] ++ name "Leaf" ++
  [xa2; x63] ++ name "key" ++ [x82; x00; x00; x64] ++ name "data" ++ [x82; x00; x18; x40].
Proof. vm_compute. reflexivity. Qed.

(** C72 is false in every self-describing format, for every leaf and every branch: it cannot be decoded. *)
Theorem C72_leaves_branches :
  ∀ (F : format) (n : nat) (nd : node n), faithful F → small nd → is_data nd = false →
  f_dec (n:=n) F (f_enc F nd) = Err "invalid type: sequence, expected an unsigned integer from 0 to 255" .
Proof.  intros F n nd HF. exact (f_dec_fails F HF nd). Qed.
Print Assumptions C72_leaves_branches.
Example C72_leaf_case : small (Node 3 (VLeaf K1 K2)) ∧
  f_dec (n:=2) json (f_enc json (Node 3 (VLeaf K1 K2))) = Err seq_error.
Proof.
  assert (small (Node 3 (VLeaf K1 K2))) as Hs by (repeat split; vm_compute; reflexivity).
  split; [exact Hs|]. exact (C72_leaves_branches json 2 _ json_faithful Hs eq_refl).
Qed.
Example C72_leaf_cbor_case : small (Node 3 (VLeaf K1 K2)) ∧
  f_dec (n:=2) cbor (f_enc cbor (Node 3 (VLeaf K1 K2))) = Err seq_error.
Proof.
  assert (small (Node 3 (VLeaf K1 K2))) as Hs by (repeat split; vm_compute; reflexivity).
  split; [exact Hs|]. exact (C72_leaves_branches cbor 2 _ cbor_faithful Hs eq_refl).
Qed.

(** C72, what does hold in these formats: data nodes come back. *)
Theorem C72_data_partial :
  ∀ (F : format) (n : nat) (nd : node n), faithful F → small nd → is_data nd = true →
  f_dec F (f_enc F nd) = Ok nd.
Proof.  intros F n nd HF. exact (f_dec_data F HF nd). Qed.
Print Assumptions C72_data_partial.
Example C72_data_case : small (n:=2) (Node 3 (VData [x05; xff])) ∧
  f_enc (n:=2) json (Node 3 (VData [x05; xff])) = name "{""references"":3,""node"":{""Data"":{""value"":[5,255]}}}".
Proof. split; [repeat split; vm_compute; reflexivity|vm_compute; reflexivity]. Qed.

(** C72, what does hold: with the [bincode] feature everything is read back (C49 on this model). *)
Theorem C72_bincode_partial :
  ∀ (n : nat) (H : list bytes → arr n) (A : Type) (p : prog n A) (s : rocks_st n),
  (∀ s', s' ∈ states (rocks_db n) H p s → small_st s') →
  frun enc_node (dec_node n) H p (fser enc_node s) =
  (out (rocks_db n) H p s, fser enc_node (fin (rocks_db n) H p s)).
Proof.  intros n H A p s Hs. rewrite <- brun_frun. exact (proj1 (brun_run H p s Hs)). Qed.
Print Assumptions C72_bincode_partial.

(** C72: in these formats a call behaves as it should exactly until it reads a leaf or a branch, and then fails. *)
Theorem C72_execution :
  ∀ (F : format) (n : nat) (H : list bytes → arr n) (A : Type) (p : prog n A) (s : rocks_st n),
  faithful F → (∀ s', s' ∈ states (rocks_db n) H p s → small_st s') →
  if reads_node H p s then (frun (f_enc F) (f_dec F) H p (fser (f_enc F) s)).1 = RErr seq_error
  else frun (f_enc F) (f_dec F) H p (fser (f_enc F) s) =
       (out (rocks_db n) H p s, fser (f_enc F) (fin (rocks_db n) H p s)).
Proof.  intros F n H A p s. exact (format_run F H p s). Qed.
Print Assumptions C72_execution.
Example C72_execution_case : reads_node toy (i2 RB) (s1 RB) = true ∧ reads_node toy i1 (b_init RB) = false ∧
  out RB toy (i2 RB) (s1 RB) = ROk (r2 RB).
Proof. split_and!; vm_compute; reflexivity. Qed.

(** C72 is false of every tree: the first insertion into a new database succeeds and returns a root, on which
    every read, proof, removal and further insertion fails. *)
Theorem C72_first_insert :
  ∀ (F : format) (n : nat) (H : list bytes → arr n) (V : Type) (enc : V → res bytes) (dec : bytes → res V),
  0 < n → codec_ok enc dec → faithful F → (∀ b, f_read F b ≠ Pan) →
  ∀ D ks vs r, let p := insert enc D None ks vs in let RB := rocks_db n in
  no_collision H (hlog RB H p (b_init RB)) →
  (∀ s', s' ∈ states RB H p (b_init RB) → small_st s') → out RB H p (b_init RB) = ROk r →
  let go := λ A, frun (A:=A) (f_enc F) (f_dec F) H in
  let s := fser (f_enc F) (fin RB H p (b_init RB)) in
  go _ p binit = (ROk r, s) ∧
  (∀ D k, go _ (get_one dec D r k) s = (RErr seq_error, s)) ∧
  (∀ D ks, ks ≠ [] → go _ (get dec D r ks) s = (RErr seq_error, s)) ∧
  (∀ D k, go _ (generate_inclusion_proof D r k) s = (RErr seq_error, s)) ∧
  (∀ f, go _ (remove (S f) r) s = (RErr seq_error, s)) ∧
  (∀ D ks vs, ∃ er, (go _ (insert enc D (Some r) ks vs) s).1 = RErr er).
Proof.  intros F n H V enc dec Hn Hc HF HP. exact (first_insert Hn H enc dec Hc F HF HP). Qed.
Print Assumptions C72_first_insert.
Example C72_first_insert_case : no_collision toy (hlog RB toy i1 (b_init RB)) ∧
  forallb small_st_b (states RB toy i1 (b_init RB)) = true ∧ out RB toy i1 (b_init RB) = ROk (r1 RB).
Proof. split_and!; [apply no_collision_b_sound; vm_compute; reflexivity|vm_compute; reflexivity..]. Qed.

(** C72, concretely: with [bincode] the inserted value is read, with [json] reading it fails. *)
Theorem C72_refuted :
  ∃ (k : arr 2) (v : bytes) (r : arr 2),
  let p := insert idc 17 None [K2; k] [v2; v] in
  let after := λ fe fd, (frun fe fd toy p binit).2 in
  (frun (f_enc json) (f_dec json) toy p binit).1 = ROk r ∧
  (frun enc_node (dec_node 2) toy p binit).1 = ROk r ∧
  (frun enc_node (dec_node 2) toy (get_one idc 17 r k) (after enc_node (dec_node 2))).1 = ROk (Some v) ∧
  (frun (f_enc json) (f_dec json) toy (get_one idc 17 r k) (after (f_enc json) (f_dec json))).1 =
    RErr "invalid type: sequence, expected an unsigned integer from 0 to 255" .
Proof.  exists K1, v1, (r1 RB). split_and!; vm_compute; reflexivity. Qed.
Print Assumptions C72_refuted.

(** C72: the missing [visit_seq] is the only obstacle; with one that collects the bytes of the sequence, every
    execution in every faithful format agrees with the one over nodes. *)
Theorem C72_with_visit_seq :
  ∀ (F : format) (n : nat) (H : list bytes → arr n) (A : Type) (p : prog n A) (s : rocks_st n),
  faithful F → (∀ s', s' ∈ states (rocks_db n) H p s → small_st s') →
  frun (f_enc F) (f_dec_with visit_seq_fixed F) H p (fser (f_enc F) s) =
  (out (rocks_db n) H p s, fser (f_enc F) (fin (rocks_db n) H p s)).
Proof.  intros F n H A p s. exact (format_run_fixed F H p s). Qed.
Print Assumptions C72_with_visit_seq.
Example C72_with_visit_seq_case : let fe := f_enc json in let fd := f_dec_with (n:=2) visit_seq_fixed json in
  (frun fe fd toy (get_one idc 17 (r1 RB) K1) (frun fe fd toy i1 binit).2).1 = ROk (Some v1).
Proof. vm_compute. reflexivity. Qed.
