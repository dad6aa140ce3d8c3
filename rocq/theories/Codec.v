(** * Serialization and hash adaptors: model
    [bincode] 1.3 (features [bincode] of Cargo.toml) applied to [TreeNode], the
    [Serialize]/[Deserialize] instances of [Array<N>], the byte-level RocksDB
    backend and the [finalize] methods of src/tree_hasher.  The behaviour of the
    [bincode] and [serde] crates themselves is transcribed from their
    documentation (they are not part of /repo): fixed-width little-endian
    integers, sequences and byte strings prefixed by their length as [u64], enum
    variants by their index as [u32], trailing bytes ignored. *)
From Coq Require Import Strings.Byte NArith.
From stdpp Require Import prelude countable gmap sorting strings.
From Verif Require Import Model.

Local Open Scope nat_scope.

(** ** Integers *)
Definition byte_of (x : N) : byte := default x00 (Byte.of_N (x mod 256)).
Fixpoint le_bytes (w : nat) (x : N) : bytes :=
  match w with 0 => [] | S w' => byte_of x :: le_bytes w' (x / 256) end.
Fixpoint read_le (w : nat) (b : bytes) : res (N * bytes) :=
  match w with
  | 0 => Ok (0%N, b)
  | S w' =>
      match b with
      | [] => Err "io error: unexpected end of file"
      | x :: b' => r ← read_le w' b'; Ok ((Byte.to_N x + 256 * r.1)%N, r.2)
      end
  end.
(** [u64] and [usize] (64-bit targets). *)
Definition enc_u64 (x : nat) : bytes := le_bytes 8 (N.of_nat x).
Definition dec_u64 (b : bytes) : res (nat * bytes) :=
  r ← read_le 8 b; Ok (N.to_nat r.1, r.2).
Definition enc_u32 (x : nat) : bytes := le_bytes 4 (N.of_nat x).
Definition dec_u32 (b : bytes) : res (nat * bytes) :=
  r ← read_le 4 b; Ok (N.to_nat r.1, r.2).

(** ** Byte sequences
    Writing: [serialize_seq] with a known length followed by the elements, both
    for [Array<N>] (src/lib.rs:219-228) and for [Vec<u8>]
    (src/tree/tree_data.rs:29).  Reading: a length, then that many bytes. *)
Definition enc_seq (l : bytes) : bytes := enc_u64 (length l) ++ l.
Definition dec_seq (b : bytes) : res (bytes * bytes) :=
  r ← read_le 8 b;
  if (r.1 <=? N.of_nat (length r.2))%N
  then Ok (take (N.to_nat r.1) r.2, drop (N.to_nat r.1) r.2)
  else Err "io error: unexpected end of file".
(** [ArrayVisitor::visit_bytes] (src/lib.rs:244-251): copies the first
    [min(N, len)] bytes into a zero array. *)
Definition visit_bytes (n : nat) (v : bytes) : arr n := mkarr n v.
Definition enc_arr {n} (a : arr n) : bytes := enc_seq a.
(** [Deserialize for Array<N>] (src/lib.rs:254-260). *)
Definition dec_arr (n : nat) (b : bytes) : res (arr n * bytes) :=
  r ← dec_seq b; Ok (visit_bytes n r.1, r.2).

(** ** Nodes: derived instances, fields in order of declaration *)
(** [TreeBranch] (src/tree/tree_branch.rs:32-43), [TreeLeaf]
    (src/tree/tree_leaf.rs:28-33), [TreeData] (src/tree/tree_data.rs:27-30),
    [NodeVariant] (src/traits.rs:132-139), [TreeNode]
    (src/tree/tree_node.rs:31-36). *)
Definition enc_variant {n} (v : variant n) : bytes :=
  match v with
  | VBranch count zero one si key =>
      enc_u32 0 ++ enc_u64 count ++ enc_arr zero ++ enc_arr one ++ enc_u64 si ++ enc_arr key
  | VLeaf key data => enc_u32 1 ++ enc_arr key ++ enc_arr data
  | VData value => enc_u32 2 ++ enc_seq value
  end.
Definition dec_variant (n : nat) (b : bytes) : res (variant n * bytes) :=
  i ← dec_u32 b;
  match i.1 with
  | 0 =>
      c ← dec_u64 i.2; z ← dec_arr n c.2; o ← dec_arr n z.2; s ← dec_u64 o.2; k ← dec_arr n s.2;
      Ok (VBranch c.1 z.1 o.1 s.1 k.1, k.2)
  | 1 => k ← dec_arr n i.2; d ← dec_arr n k.2; Ok (VLeaf k.1 d.1, d.2)
  | 2 => v ← dec_seq i.2; Ok (VData v.1, v.2)
  | _ => Err "invalid value: integer, expected variant index 0 <= i < 3"
  end.
Definition enc_node {n} (nd : node n) : bytes := enc_u64 (refs nd) ++ enc_variant (var nd).
(** [TreeNode::encode] and [TreeNode::decode] (src/tree/tree_node.rs:80-86,
    130-136). *)
Definition dec_node (n : nat) (b : bytes) : res (node n) :=
  r ← dec_u64 b; v ← dec_variant n r.2; Ok (Node r.1 v.1).

(** The numbers of a node fit in 64 bits. *)
Definition u64 (x : nat) : Prop := (N.of_nat x < 2 ^ 64)%N.
Definition small_variant {n} (v : variant n) : Prop :=
  match v with
  | VBranch count _ _ si _ => u64 count ∧ u64 si
  | VLeaf _ _ => True
  | VData value => u64 (length value)
  end.
Definition small {n} (nd : node n) : Prop := u64 n ∧ u64 (refs nd) ∧ small_variant (var nd).

(** ** RocksDB on bytes (src/tree_db/rocksdb.rs:37-80)
    As [rocks_db] in Model.v, with the serialization: [insert] encodes,
    [get_node] decodes and fails if decoding fails. *)
Record brocks_st (n : nat) : Type := BRocks {
  bcommitted : gmap (arr n) bytes;
  bpending : list (arr n * bytes);
}.
Arguments BRocks {n} bcommitted bpending.
Arguments bcommitted {n} b.
Arguments bpending {n} b.
Definition binit {n} : brocks_st n := BRocks ∅ [].
Definition bput {n} (s : brocks_st n) (l : arr n) (nd : node n) : brocks_st n :=
  BRocks (bcommitted s) (bpending s ++ [(l, enc_node nd)]).
Definition bdel {n} (s : brocks_st n) (l : arr n) : brocks_st n :=
  BRocks (delete l (bcommitted s)) (bpending s).
Definition bflush {n} (s : brocks_st n) : brocks_st n :=
  BRocks (foldl (λ m p, <[p.1 := p.2]> m) (bcommitted s) (bpending s)) [].
Definition bdrop {n} (s : brocks_st n) : brocks_st n := BRocks (bcommitted s) [].
Definition bget {n} (s : brocks_st n) (l : arr n) : res (option (node n)) :=
  match bcommitted s !! l with
  | Some b => nd ← dec_node n b; Ok (Some nd)
  | None => Ok None
  end.

(** Execution over bytes. *)
Fixpoint brun {n A} (H : list bytes → arr n) (p : prog n A) (s : brocks_st n) : outcome A * brocks_st n :=
  match p with
  | Ret a => (ROk a, s)
  | Throw e => (RErr e, s)
  | Panic => (RPanic, s)
  | Fuel => (RFuel, s)
  | Hash cs k => brun H (k (H cs)) s
  | Get l k =>
      match bget s l with
      | Ok o => brun H (k o) s
      | Err e => (RErr e, s)
      | Pan => (RPanic, s)
      end
  | Put l nd k => brun H k (bput s l nd)
  | Del l k => brun H k (bdel s l)
  | Flush k => brun H k (bflush s)
  end.
(** The states it goes through. *)
Fixpoint bstates {n A} (H : list bytes → arr n) (p : prog n A) (s : brocks_st n) : list (brocks_st n) :=
  s :: match p with
       | Ret _ | Throw _ | Panic | Fuel => []
       | Hash cs k => bstates H (k (H cs)) s
       | Get l k => match bget s l with Ok o => bstates H (k o) s | _ => [] end
       | Put l nd k => bstates H k (bput s l nd)
       | Del l k => bstates H k (bdel s l)
       | Flush k => bstates H k (bflush s)
       end.

(** ** Hash adaptors
    [dst[..k].copy_from_slice(src)] panics unless [k] is within [dst] and [src]
    has length [k]; [src[..k]] panics unless [k] is within [src]. *)
Definition slice_to (l : bytes) (k : nat) : res bytes := if k <=? length l then Ok (take k l) else Pan.
Definition copy_prefix (dst : bytes) (k : nat) (src : bytes) : res bytes :=
  if (k <=? length dst) && (length src =? k) then Ok (src ++ drop k dst) else Pan.
(** [finalize] of [DefaultHasher], [FxHasher], [SeaHasher]
    (src/tree_hasher/default.rs:18-31, fx.rs:17-29, seahasher.rs:18-30);
    [value] is the [u64] digest, 8 bytes. *)
Definition finalize_u64 (n : nat) (value : bytes) : res bytes :=
  let v := replicate n x00 in
  if 8 <=? n then copy_prefix v 8 value else s ← slice_to value n; copy_prefix v n s.
(** [Sha256Hasher::finalize] (src/tree_hasher/sha256.rs:20-33); 32 bytes. *)
Definition finalize_sha256 (n : nat) (value : bytes) : res bytes :=
  let v := replicate n x00 in
  if 32 <? n then copy_prefix v 32 value else s ← slice_to value n; copy_prefix v n s.
(** [finalize] for any [Digest] (src/traits.rs:35-47). *)
Definition finalize_digest (n : nat) (result : bytes) : res bytes :=
  let size := if length result <? n then length result else n in
  s ← slice_to result size; copy_prefix (replicate n x00) size s.
(** [Blake2bHasher::finalize] (src/tree_hasher/blake2b_rfc.rs:21-29): the whole
    digest is copied.  [Blake2b::new(size)] makes the digest [size] bytes long
    and panics unless [1 <= size <= 64]; the tree passes [size = N]. *)
Definition finalize_blake2b (n : nat) (result : bytes) : res bytes := copy_prefix (replicate n x00) n result.
Definition blake2b (n : nat) (digest : nat → bytes → bytes) (data : bytes) : res bytes :=
  if (1 <=? n) && (n <=? 64) then finalize_blake2b n (digest n data) else Pan.
