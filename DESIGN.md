# Formal model of ChosunOne/merkle_bit

The crate `starling` is a Merkle binary index tree: a binary Patricia trie over
`N`-byte keys whose nodes are stored in a key/value database under their hash,
so that many versions (roots) share structure, with reference counts for
removal and with inclusion proofs.

## Layout

`rocq/theories`, in build order:

| files | contents |
|---|---|
| `Model.v` | the code, function by function, with file:line citations; computable; no proofs |
| `Codec.v` | model of serialization (bincode), of RocksDB on bytes and of the hash adaptors |
| `Bits.v`, `Spec.v` | specification vocabulary: bits of a key, expected maps, histories of calls, what "a root serves a map" means, reference counts, shape of a stored tree |
| `Util.v`, `Bitwise.v` | the helpers of `tree_utils.rs` against the bit vocabulary |
| `Trie.v`, `Store.v` | abstract tries; tries stored in a database |
| `Logic.v` | laws of a backend, weakest preconditions for programs |
| `Reads.v`, `Get.v`, `Sim.v` | single-key reads, proofs, multi-key reads |
| `Build.v`, `Evol.v`, `Route.v`, `Insert.v`, `Update.v`, `Safe.v` | insertion |
| `Hist.v`, `Claims.v` | histories without removals |
| `RefCount.v`, `RcInsert.v`, `RcRemove.v`, `Live.v` | reference counts, removal, histories with removals |
| `Regrow.v` | when an insertion creates a branch that another tree already has |
| `Weak.v`, `Fail.v` | histories in which calls fail or are cut short |
| `Stray.v` | removal of a location that is not a live root |
| `Limits.v` | raising the depth limit; what a restart loses |
| `Need.v` | the depth limit a key needs; trees below a root; inserting pairs that are there |
| `Exact.v` | which insertions make a later removal damage another root, and which leak |
| `Cost.v` | storage taken by trees, hashes and database reads of calls |
| `Work.v` | bounds on the work of calls on any database |
| `Outcome.v` | which calls fail, and with which error |
| `Serde.v` | model of the serde instances for self-describing formats, of JSON texts and of RocksDB with any node encoding |
| `Backends.v` | the same calls on two backends; equality of the databases; where they differ |
| `SerdeProofs.v`, `SerdeTree.v` | JSON round trip; which nodes decode; consequences for trees |
| `Cbor.v` | model of CBOR texts; round trip |
| `Origin.v` | histories with arbitrary batches: where the entries of a tree come from |
| `Usage.v` | requests that are always answered correctly, pair-by-pair insertion, the caller's buffers |
| `Agree.v`, `Total.v`, `Paths.v`, `Growth.v`, `Depth.v`, `Shape.v`, `CodecProofs.v`, `Bytes.v`, `Struct.v` | backends, termination, proofs, sizes, depth, shape, bytes |
| `Scenario.v`, `Scenario3.v`, `Scenario4.v`, `Refuted.v`, `Scenario5.v` | concrete runs: satisfiability of hypotheses, counterexamples |
| `Machine.v` | the functions that do arithmetic, with machine integers (definitions only); sequences of operations |
| `Counts.v` | the key counts and reference counts that any execution can store |
| `Deploy.v` | machine integers over the bytes stored in RocksDB: the layers together |
| `MachineProofs.v`, `Scenario6.v` | machine integers and unbounded ones give the same executions; room for proofs; cases |
| `Formula.v` | roots and proofs as functions of the list of pairs, without a tree |
| `Select.v` | the keys found by `get` and the depth it needs, as functions of the keys of the tree and the request |
| `Batch.v`, `Scenario9.v` | the root returned by `insert`, as a function of the old and the new pairs |
| `Digests.v` | MD2, MD4, MD5, SHA-1, RIPEMD-160 and -320, Whirlpool, Groestl-256, with published test vectors; the two implementations of SHA-256, SHA-3, Keccak and BLAKE2b compared |
| `Swap.v`, `Scenario11.v` | a call depends on the hasher through the values it asks for; trees of several hashers |
| `Hashers.v`, `Blake.v` | SipHash-1-3 (`DefaultHasher`), Keccak-256, SHA3-256, SHA-256, BLAKE2b, with published test vectors; buffered input |
| `Fx.v`, `Sea.v`, `Forge.v`, `Scenario7.v` | the FxHash and SeaHash hashers and their collisions; what one collision does to a database |
| `Wild.v`, `Lost.v`, `Calm.v`, `Scenario8.v` | databases after any history, with lost nodes: what is stored is what it should be, what reads return, no panics; altered databases |
| `Written.v`, `Scenario10.v` | databases after any history: where the values come from |
| `Release.v`, `Scenario13.v` | `insert` and `get` with the search functions of the standard library as parameters; those of Rust 1.82 |
| `Every.v` | insertions into live roots of histories with removals and failures, also where branches are created again (C02, C03, C27, C55, C56, C63, C76, C88, C89); what live roots commit to (C09, C10, C12, C14, C48, C60); their limits (C25) and growth (C28) |
| `Sane.v` | no panics in databases with foreign nodes, for every hash function |
| `MachineTotal.v` | bounds on the fetches of every call on machine integers, on arbitrary databases |
| `SaneBuild.v` | the same on machine integers that wrap around |
| `AnyReads.v`, `Scratch.v`, `Moved.v`, `Scenario12.v` | databases about which nothing is known, or only that they have certain trees: single reads, trees built from scratch, copied trees |
| `PropsHist.v`, `PropsLive.v`, `PropsRefuted.v`, `PropsMore.v`, `PropsWeak.v`, `PropsUsage.v`, `PropsExact.v`, `PropsLimits.v`, `PropsOrigin.v`, `PropsSpare.v`, `PropsCost.v`, `PropsOutcome.v`, `PropsSerde.v`, `PropsBackends.v`, `PropsMachine.v`, `PropsDeploy.v`, `PropsFx.v`, `PropsLost.v`, `PropsWork.v`, `PropsFormula.v`, `PropsDigests.v`, `PropsSelect.v`, `PropsWritten.v`, `PropsAny.v`, `PropsRelease.v`, `PropsEvery.v`, `PropsSane.v` | the claims: `Theorem` with a one-line proof, `Print Assumptions`, and `Example`s that apply the theorem to a concrete case |

`properties.jsonl` lists the properties, `MANIFEST.json` their status and
theorems, `seeded/LOG.jsonl` the runs of the theorems against wrong programs.

An entry of the log with `proofs_rebuilt` comes from rebuilding the development on the
edited model. The others come from extracting the edited model and evaluating each
theorem's statement on a fixed set of concrete histories: the theorems listed under
`statements_false_on_concrete_run` are false of the edited program there, hence not
provable. A note says why a claim expected to break did not.

## The model

* `arr n` is `[u8; N]` (length in the type). Keys and locations are both `arr n`.
* A method is a *program*: a tree of effects `Hash / Get / Put / Del / Flush`
  ending in a value, an error, a panic or the exhaustion of a loop bound. The
  effects are exactly the calls of the traits `Hasher` and `Database`.
* Programs run on a *backend*. `hash_db` is the HashMap backend; `rocks_db` is
  the RocksDB backend with a pending write batch that reads do not see.
  The theorems quantify over every backend that satisfies the laws `BackendOk`
  (`Logic.v`); both backends are proved to be instances.
* Because the effects are explicit, the same program also gives the list of
  states it goes through (`states`, for crashes) and its execution with the
  `i`-th database operation failing (`run_fault`, for storage errors).
* `run` also returns the list of hash inputs, so that "no hash collision" is
  stated for the strings actually hashed (`no_collision`). A hash into `N` bytes
  is never injective on all strings; a global injectivity hypothesis would be
  unsatisfiable and is not used.
* The hash function is an arbitrary function, the value codec any pair of
  functions satisfying `codec_ok` (round trip, no panic).
* Loops are recursions on a bound; exhausting the bound is the explicit outcome
  `Fuel`, which is proved unreachable on every database content (C22, C26).
* Hash maps that are only looked up are `gmap`s; the iteration order of a hash
  map is never observed by the modelled code (`indices` is sorted first).

### Simplifications

* In `Model.v`, `u64`, `u32` and `usize` numbers are `nat`. `Machine.v` has the
  same functions with fixed-width integers, overflowing with a panic or wrapping
  around; C74 shows that the two agree on every execution in which fewer than
  2^64 keys are passed and nodes written in all, and fewer than 2^32 nodes in one
  call. A depth limit of exactly `usize::MAX` and `N = 0` are outside of that
  theorem.
* `sort_unstable` and `sort` are `merge_sort`. Keys that compare equal are equal,
  so instability is not observable on keys; the sort of references is stable in
  both.
* The error values of `Exception` are kept as strings; errors of a failing
  database are one string.
* References versus copies and the `PhantomData` wrappers have no counterpart.
  Of the reserved capacities (`with_capacity`), those of `generate_inclusion_proof`
  are modelled in `Machine.v`, because they depend on the depth limit only; the
  others are proportional to slices the caller holds in memory. Running out of
  memory is not modelled.
* `keys: &mut [Array<N>]` is sorted in place by `insert` and `get`; the methods
  of the model take the list by value, and `keys_after_insert`, `keys_after_get`
  give the caller's slice afterwards.

### What is modelled, file by file

| source | status |
|---|---|
| `merkle_bit.rs` 77-904 | every method: `get`, `push_cell_if_node`, `insert`, `generate_treerefs`, `traverse_tree`, `insert_leaf`, `split_nodes`, `insert_leaves`, `create_tree`, `merge_nodes`, `remove`, `generate_inclusion_proof`, `verify_inclusion_proof`, `get_one`, `insert_one` |
| `merkle_bit.rs` `new`, `from_db`, `decompose` | as the initial state, and as `b_drop` (RocksDB: the queue is lost, the database is kept) |
| `utils/tree_utils.rs`, `utils/tree_ref.rs`, `utils/tree_cell.rs`, `constants.rs` | all functions |
| `tree/*.rs` | the data and the bincode encoding; getters and setters are record fields |
| `tree_db/hashmap.rs`, `hashbrown.rs`, `rocksdb.rs` | `hash_db`, `rocks_db`, and RocksDB on bytes (`Codec.v`, C49) |
| `tree_hasher/*.rs` | all adaptors (C37); of the hash functions themselves SipHash-1-3 (`DefaultHasher`), SHA-256, Keccak-256, SHA3-256, BLAKE2b, SeaHash and FxHash (for little-endian 64-bit targets), MD2, MD4, MD5, SHA-1, RIPEMD-160, RIPEMD-320, Whirlpool and Groestl-256, from their published specifications and sources, checked with published test vectors (FxHash: none) |
| `lib.rs` | `Array<N>`, its order, `Serialize`/`Deserialize` under bincode and under self-describing formats (C72) |
| `hash_tree.rs`, `rocks_tree.rs` | forwarding wrappers; nothing to model beyond the choice of backend |
| `traits.rs` | the traits are the effects; `Exception` is a string |
| not modelled | the texts of YAML, RON and pickle (only what the serde instances ask of them; JSON texts are modelled, without white space and escapes, and CBOR texts, without the kinds of items, that the writer does not produce), the RocksDB library below `get/put/delete/write`, the benchmark binary, memory exhaustion. There is no concurrency in the code (`&mut self`) |

## Trusted base

* The Coq 8.16.1 kernel, including its `vm_compute` machine.
* Axioms: none. `Print Assumptions` reports "Closed under the global context"
  for every theorem of `Props*.v`. The libraries loaded (std++ and, through it,
  parts of the Coq standard library and `ssreflect`) contain seven parameters in
  `Coq.ssr.ssrunder`; `coqchk -o` lists them because they are loaded, no theorem
  depends on them.
* The transcription of the Rust sources into `Model.v`, `Codec.v`, `Serde.v` and `Cbor.v`, including the
  behaviour of the Rust standard library functions used (`sort`,
  `binary_search_by`, `partition_point`, `HashMap`, `VecDeque`), of bincode, serde and
  serde_json (from their documentation), of the hash functions (from their
  specifications; only in C37, C77, C82 and C86), and of RocksDB (`write` of a batch is atomic and
  durable, `get` sees exactly what was written).
  `partition_point` is that of Rust 1.52 to 1.81. For requests and batches without the hazard
  of `Spec.v` later releases do the same (C90). With it the list can be unpartitioned, and a later
  release may cut elsewhere; for these all statements (the `mild` ones of C03 and C05,
  `C83_get_found`, `C84_insert_parts`) are about the modelled search.
  As a check of the transcription, `RepoTests.v` runs the repository's own tests
  on the model, with both backends, at compile time (random data from another
  generator and fewer entries). Outside this repository the model,
  extracted to OCaml, was also compared with a separate port of the sources to Python
  on 30000 random scenarios (all public methods, both backends, failing operations,
  restarts, altered nodes), outcome and whole database after each call, without a
  difference. Both were written from the same reading of the sources, so this finds
  slips and not misreadings.
* The reading of `Spec.v` and of the statements in `Props*.v`.

## Properties

"Refuted" means that the property as a user would state it is false of the code:
a `_refuted` theorem exhibits a run, and `_partial` theorems prove the largest
part found to hold.

| id | result | how |
|---|---|---|
| C01, C02 | proved | wp of `insert_leaves` and `create_tree`; decomposition of the old trie along the batch, then merge. `C02_live` and the other `_live` theorems about insertions (C03, C27, C55, C56, C63, C76): the live tree is compared with a database holding nothing else (`ainv_insert`, C89), so removals, failures and restarts before the call do not matter |
| C03 | refuted, partial | F1 below; proved for mild batches |
| C04 | proved | induction on the stored trie |
| C05 | refuted, partial | F1; proved for mild requests |
| C06 | proved | invariant of the stack loop, no side condition |
| C07, C08 | proved | every write of an insertion is a node of some trie whose preimage was hashed, so it cannot change the content of a stored node |
| C09 | proved | a well-formed trie is determined by its map |
| C10 | proved | locations are injective on tries whose preimages were hashed |
| C11–C14 | proved | induction on the path; preimage chase |
| C15 | refuted, partial | F7; proved for proofs with equal directions |
| C16–C18 | proved | on the programs; C17 through adjacency of equal keys after sorting, in any database (`any_accepted`) |
| C19, C23, C41, C47 | proved | exact reference-count invariant with the work queue as external references |
| C20, C21 | refuted, partial | F2, F3; proved under a condition on the inserted batches that is shown to be necessary too (`C20_exact`: no branch of a live root made again; `C21_exact`: no pair of a live root inserted again) |
| C22, C26 | proved | measures on the database and the depth; any database content; `C26_machine`: on machine integers of every build, if the depth limit is below the largest number (with the largest, in a build that wraps around, a cycle is read beyond the bound: `C26_machine_case` on five bits) |
| C24, C25 | proved; refuted, partial | F6; depth of the trie against the limit, exact limits |
| C27, C28 | proved | consequences of the stored-trie invariant; counting writes |
| C29, C30, C32 | proved | invariant at every intermediate state; backend laws |
| C31 | proved | simulation of the two backends |
| C33, C34 | proved | byte facts by computation over all 65536 byte pairs, lifted by `forallb_forall`; induction on the key |
| C35 | refuted, partial | F1; exact characterisation |
| C36 | proved | lengths of the chunks |
| C37 | partial | F9; hash functions modelled (`hashers_length`) |
| C38, C49 | proved | round trip of the encoding; simulation |
| C39 | refuted, partial | F8 |
| C40, C43, C44 | proved | on the programs |
| C46 | proved | on the programs; `C46_any_history` after any history: every node read is the node its location stands for (`obj_put`), which is enough for every index to be in range (`calm`); `C46_any_hash`: without assumptions about the hash function, by C91 |
| C42 | refuted, partial | F5; exact condition proved (`C42_exact`), for any location (`C42_stray`) |
| C45 | refuted, partial | F4 |
| C48 | proved | uniqueness of the path |
| C50 | proved | count of insertions |
| C51–C53 | proved | lower bounds on reference counts instead of exact ones, kept at every state of every call |
| C54, C55 | proved | a hazard needs two absent keys, a loss needs three keys |
| C56 | proved | induction on the pairs; canonicity for the equality with the batch |
| C57 | refuted, partial | F10; proved for equal arguments |
| C58 | proved | on the programs |
| C59 | proved | on the programs: every successful path ends with a commit |
| C60 | proved | trie: depth of a key = length of its proof - 2 |
| C61 | proved | on the programs: simulation between the two limits |
| C62 | proved | a subtrie of a stored trie is a stored trie; keys below a branch = keys agreeing with it |
| C63 | proved | from C03/C09: the hazard needs absent keys |
| C64 | proved | invariant over histories with arbitrary batches (`uhist`): the leaves are among the pairs given; injective hash strings for proofs |
| C65 | proved | same invariant: the old pieces keep every leaf that is not overwritten |
| C66 | proved | same invariant: both calls descend the stored trie the same way |
| C67 | proved | lower bounds on reference counts: an insertion only lowers a count when it makes the branch again; `spares` says that no needed count is lowered. Also a step (`whist_any`) of the histories of C51–C53 |
| C68 | proved | the nodes of a stored trie are pairwise different; no node without a reference (C41, C22) |
| C69 | proved | hashes counted on the programs: 2 per key + 1 per pair of adjacent references; the references besides the new leaves are the maximal untouched subtries |
| C70 | proved | reads counted on the programs, by induction on the stored trie |
| C71 | proved | `get` and `insert` visit the same nodes of the stored trie; order of the checks on the programs |
| C72 | refuted, partial | F11; documents and JSON texts modelled, round trip by induction; execution on encoded nodes agrees with the one on nodes until a leaf or branch is read |
| C73 | refuted, partial | F12; both databases satisfy the exact-count invariant of C41 for the same trees, which determines them (`RC_det2`); insertions agree by C31 and C71 |
| C74 | proved | the functions with machine integers are compared with those of `Model.v` step by step (`agree`); the numbers stay in range because of an invariant of all databases that any use can reach (`used_inv`): counts of branches are at most one more than the keys passed, counts of references at most the nodes written |
| C75 | refuted, partial | F13; capacity arithmetic of the two vectors in `generate_inclusion_proof` |
| C76 | proved | C49 and C74 composed; that the numbers and lengths stored fit in 64 bits is proved from the bounds of C74 (`used_small`), not assumed |
| C77 | refuted, partial | F14; FxHash modelled; an earlier word of the input can be replaced if the next one makes up for it (`fx_forge`); SeaHash modelled; there the word four places later is in the same lane and makes up for it (`sea_forge`); the stored trie with one value replaced is stored at the same locations (`tset_stored`) |
| C78 | refuted, partial | F15; the stored trie against a database from which nodes were lost: the loops as functions of what is missing (`lost`, `gres`) |
| C79 | proved | two databases that hashed no colliding strings have equal nodes at equal locations, up to reference counts (`wild_inv`, `agree`); simulation of the two executions (`sim`) |
| C80 | refuted, partial | F16; proofs are checked without the database |
| C81 | proved | a logic with a budget for priced operations, over all answers of the database (`bw`); removal: each fetch is the root or a child of a deleted node |
| C82 | partial, refuted | F17; the trie with its leaves in any order against a recursion over the bits (`mroot_trie`, `mpath_trie`); buffered input depends on the concatenation only (`buf_concat`, `sea_concat`) |
| C83 | proved | the keys a request reaches, computed by a recursion over the bits (`found_trie`), against the traversal of the stored trie (`get_loop_wp`) |
| C84 | proved | the pieces that stay (`kept_trie`) and the order of the merge (`merged`: any invariant of joining two adjacent pieces that agree longest), against a recursion over the bits (`jroot_join`) |
| C85 | proved | every node stands for a string that was hashed, and the data strings an insertion hashes are those of its pairs, whatever the database answers (`says`, `wrote_inv`) |
| C86 | partial, refuted | F18; a call depends on the hasher only through the values it asks for (`run_same`); the squeeze of a longer output extends that of a shorter one (`kc_squeeze_prefix`) |
| C87 | proved | the three loops visit the same nodes when they look for one key (`search_one`) |
| C88 | proved | without a previous root the nodes a call is given only decide on reference counts (`blind`); so the call does what it does on an empty database |
| C89 | proved | a call does what it does on the smallest database with the trees in question (`plant`), unless it misses a node there (`refine`), which it does not by C03 |
| C90 | partial, refuted | F19; both programs ask for the same and keep the nodes of the tree (`alike`); without the hazard every slice is partitioned (`at_branch`), and what is documented determines the cut; so too for at most three keys in any database, as a slice that is searched begins with a zero and ends with a one (`C90_short`) |
| C91 | proved | `Sane.v`: programs that read nodes in range write nodes in range and do not panic (`np`); the merge phase on widths of blocks only (`wrep`, `wbounds`), no tries and no order of the levels needed; `C91_exact`: for a branch above 8n the keys `bk` and `bk` with the first bit changed make `check_descendants` index beyond the key. Counters are `nat` there. `C91_release` (`SaneBuild.v`): the same for the fixed-width transcription in builds without overflow checks, whose counters may wrap around; the counts that index the merge phase do not, as an insertion merges at most `most_refs` references (two per step of the traversal). A build with overflow checks can panic on foreign counters near the maximum (C74, `C91_release_case`) |

### Findings

* F1 (C03, C05, C35, C20): `check_descendants` starts at a bit offset and steps by
  8, so it can skip a byte in which a key leaves the path. With two absent keys of
  the right shape in one batch, keys are routed to the wrong child. `get` reports
  present keys as absent; `insert` loses keys or reports a duplicate. `hazard` in
  `Spec.v` is the condition; batches without it (`benign`) are handled correctly.
  A key taken for a descendant by mistake does harm to reads and insertions only if
  it comes between keys of the other child (`misled`), which takes a third key:
  batches that are hazardous and do not mislead (`mild`, `mild_get`), among them all
  of at most two keys, are read and inserted correctly. Removals do need `benign`
  (`C20_benign_needed`, a mild batch of two keys).
* F2 (C20): inserting pairs such that the new tree shares with a live root a branch
  above an inserted key stores that branch again with reference count 1; removing
  one root then destroys the other (`regrows` in `Spec.v`; exact, `C20_exact`).
* F3 (C21): the data node of such a pair is counted once per insertion, and
  decremented once; it is never freed.
* F4 (C45): a rejected batch (duplicate keys) has already incremented counts.
* F5 (C42): removing a root twice decrements a node that another root still uses. The second removal damages another root exactly if the first left the node with one reference.
* F6 (C25): the depth limit of insertions counts nodes differently from reads.
* F7 (C15): verification does not tie the directions of a proof to the key.
* F8 (C39): `ArrayVisitor` zero-pads or truncates arrays of the wrong length.
* F9 (C37): the BLAKE2b adaptor panics for `N = 0` and `N > 64`.
* F10 (C57): `insert` sorts the caller's keys in place but not the values, so calling it
  again with the same variables pairs them differently and succeeds.
* F11 (C72): `Array<N>` is serialized as a sequence but deserialized as bytes by a
  visitor without `visit_seq`. Only bincode does not tell the two apart. With the
  features `json`, `cbor`, `yaml`, `pickle` and `ron`, `RocksTree` stores trees it
  cannot read: insertion into a new database succeeds, every call on the returned
  root fails. (RON and some versions of CBOR refuse the sequence themselves, with
  another message.) A `visit_seq` that collects the bytes is enough (`C72_with_visit_seq`).
* F12 (C73): `insert_leaves` and, when the leaf is met again during the descent,
  `insert_leaf` each add one to the reference count they read. `HashTree` sees the
  first write when it makes the second, `RocksTree` does not, because writes are
  queued until `batch_write`. So a pair inserted again onto the tree that has it is
  counted 3 on one and 2 on the other; after removing both roots the value is still
  served by `HashTree` and gone from `RocksTree` (`C73_refuted`).
* F13 (C75): `generate_inclusion_proof` reserves room for `depth` entries before it
  looks at the tree. With a limit meant as "none" (`usize::MAX - 1`, or anything
  above `isize::MAX / (N + 1)`), insertions and reads work, and every proof panics
  with a capacity overflow (`C75_refuted`).
* F14 (C77): FxHash, one of the integrated hashers, is not resistant to collisions: for
  every key and every value of at least 16 bytes a second value with the same location
  is computed with one rotation and one exclusive or. Inserting it for that key into an
  empty tree replaces the value in all roots that have the first one, and the proofs of
  the first verify for the second (`C77_fxhash`). The same holds for SeaHash and values
  of at least 48 bytes (`C77_seahash`). The README says only that the schemes
  are integrated; a user of proofs or of shared databases must not choose either.
* F15 (C78): `get_one` and `get` treat a node that is missing from the database like a
  key that is absent: a root with lost nodes (after F2, F5, or a disk fault) answers
  `None` for keys it holds, without an error (`C78_refuted`). Only a missing data node
  makes `get` fail. `generate_inclusion_proof` tells the two apart.
* F16 (C80): reads do not check that a node is the one its location stands for; if a
  stored value is altered, `get_one` returns it (`C80_refuted`). A split index that is
  out of range makes it panic, and only that does (C91). Callers that do not trust their storage must verify a
  proof with every read.
* F17 (C82): FxHash hashes each piece passed to `update` separately, the last bytes of a
  piece one by one, so the location of a node is not the hash of a string: another
  program must split the input in the same way to get the same roots
  (`C82_fxhash_refuted`).
* F18 (C86): with N > 32 the features `sha3` and `keccak` squeeze N bytes, `rust_sha3` and
  `rust_keccak` pad 32 bytes with zeros, so that the same insertion gives another root
  (`C86_sha3_refuted`). `blake2-rfc` computes a digest of N bytes, `blake2b` cuts one of 64
  bytes: with N = 32 a proof made by one build for a tree of the other does not verify
  (`C86_blake_refuted`); with N = 64 they agree. Values remain readable (`C86_reads`).
* F19 (C90): because of F1 `split_pairs` can call `partition_point` on a slice that is not
  partitioned, for which the standard library promises nothing. The binary search of Rust 1.82
  cuts such slices elsewhere than that of older releases: the same batch of eight keys is
  accepted by a program compiled with one and rejected as a duplicate, or given another
  root, by a program compiled with the other, and the same `get` finds a key or does not
  (`C90_refuted`).
