{
 "claims": [
  {
   "property": "C01",
   "status": "proved",
   "theorems": [
    "C01_insert_then_read"
   ],
   "note": "Any reachable state, any backend satisfying the laws; conclusion for get_one with depth limit at least 8N+1."
  },
  {
   "property": "C02",
   "status": "proved",
   "theorems": [
    "C02_insert_one_updates",
    "C02_live"
   ],
   "note": ""
  },
  {
   "property": "C03",
   "status": "partial",
   "theorems": [
    "C03_batch_union_partial",
    "C03_live_partial",
    "C03_refuted"
   ],
   "note": "Proved for batches that are not hazardous or do not mislead relative to the keys of the tree, among them all batches of at most two keys (C55); the general statement is refuted by a run of the model."
  },
  {
   "property": "C04",
   "status": "proved",
   "theorems": [
    "C04_get_one_exact"
   ],
   "note": ""
  },
  {
   "property": "C05",
   "status": "partial",
   "theorems": [
    "C05_get_exact_partial",
    "C05_refuted"
   ],
   "note": "Proved for requests that are not hazardous or do not mislead relative to the keys of the tree, among them all requests for at most two keys (C54); the general statement is refuted by a run of the model."
  },
  {
   "property": "C06",
   "status": "proved",
   "theorems": [
    "C06_get_never_wrong"
   ],
   "note": ""
  },
  {
   "property": "C07",
   "status": "proved",
   "theorems": [
    "C07_roots_immutable",
    "C07_reads_stable",
    "C07_returned_root_stored"
   ],
   "note": ""
  },
  {
   "property": "C08",
   "status": "proved",
   "theorems": [
    "C08_failing_insert_harmless",
    "C08_failing_insert_one_harmless"
   ],
   "note": ""
  },
  {
   "property": "C09",
   "status": "proved",
   "theorems": [
    "C09_root_depends_on_contents",
    "C09_live"
   ],
   "note": ""
  },
  {
   "property": "C10",
   "status": "proved",
   "theorems": [
    "C10_root_commits",
    "C10_live"
   ],
   "note": ""
  },
  {
   "property": "C11",
   "status": "proved",
   "theorems": [
    "C11_proofs_verify"
   ],
   "note": ""
  },
  {
   "property": "C12",
   "status": "proved",
   "theorems": [
    "C12_proofs_sound",
    "C12_live"
   ],
   "note": ""
  },
  {
   "property": "C13",
   "status": "proved",
   "theorems": [
    "C13_no_proof_for_absent"
   ],
   "note": ""
  },
  {
   "property": "C14",
   "status": "proved",
   "theorems": [
    "C14_one_value_per_key",
    "C14_live"
   ],
   "note": ""
  },
  {
   "property": "C15",
   "status": "partial",
   "theorems": [
    "C15_same_path_partial",
    "C15_refuted"
   ],
   "note": "Proved for proofs with the same directions; false in general (C15_refuted): directions are not tied to the key."
  },
  {
   "property": "C16",
   "status": "proved",
   "theorems": [
    "C16_malformed_rejected"
   ],
   "note": ""
  },
  {
   "property": "C17",
   "status": "proved",
   "theorems": [
    "C17_duplicates_rejected",
    "C17_any_database"
   ],
   "note": "C17_any_database: no database whatever accepts duplicate keys."
  },
  {
   "property": "C18",
   "status": "proved",
   "theorems": [
    "C18_batch_order"
   ],
   "note": ""
  },
  {
   "property": "C19",
   "status": "proved",
   "theorems": [
    "C19_insert_then_remove",
    "C19_insert_remove_restores"
   ],
   "note": "Also generalised to any reachable state and any live previous root."
  },
  {
   "property": "C20",
   "status": "partial",
   "theorems": [
    "C20_other_roots_kept_partial",
    "C20_live_roots_served_partial",
    "C20_live_insert_total",
    "C20_any_call_keeps_live_roots",
    "C20_exact",
    "C20_damage",
    "C20_refuted"
   ],
   "note": "Proved for histories of benign batches that make no branch of a live root again (C51_live_roots_served); that condition is also necessary (C20_exact). Without it the code violates the statement (C20_refuted)."
  },
  {
   "property": "C21",
   "status": "partial",
   "theorems": [
    "C21_all_removed_partial",
    "C21_exact",
    "C21_refuted"
   ],
   "note": "Proved for histories of benign batches whose pairs no live root holds; that condition is also necessary (C21_exact). In general violated by the code (C21_refuted)."
  },
  {
   "property": "C22",
   "status": "proved",
   "theorems": [
    "C22_remove_total"
   ],
   "note": ""
  },
  {
   "property": "C23",
   "status": "proved",
   "theorems": [
    "C23_removed_root_reads_empty"
   ],
   "note": ""
  },
  {
   "property": "C24",
   "status": "proved",
   "theorems": [
    "C24_depth_enough"
   ],
   "note": ""
  },
  {
   "property": "C25",
   "status": "partial",
   "theorems": [
    "C25_insert_readable_partial",
    "C25_limits_of_reads",
    "C25_live_partial",
    "C25_limits_live",
    "C25_refuted"
   ],
   "note": "Readable under a larger limit, given exactly; under the same limit false (C25_refuted). C25_live_partial and C25_limits_live: the same for live roots of histories with removals and failures."
  },
  {
   "property": "C26",
   "status": "proved",
   "theorems": [
    "C26_calls_terminate",
    "C26_machine"
   ],
   "note": ""
  },
  {
   "property": "C27",
   "status": "proved",
   "theorems": [
    "C27_shape",
    "C27_shape_after_removals",
    "C27_live",
    "C27_insert_live"
   ],
   "note": ""
  },
  {
   "property": "C28",
   "status": "proved",
   "theorems": [
    "C28_insert_keeps",
    "C28_insert_size",
    "C28_live_keeps",
    "C28_live_size"
   ],
   "note": "C28_live_keeps, C28_live_size: also for live roots of histories with removals and failures."
  },
  {
   "property": "C29",
   "status": "proved",
   "theorems": [
    "C29_crash_during_insert"
   ],
   "note": ""
  },
  {
   "property": "C30",
   "status": "proved",
   "theorems": [
    "C30_crash_during_remove"
   ],
   "note": ""
  },
  {
   "property": "C31",
   "status": "proved",
   "theorems": [
    "C31_backends_agree"
   ],
   "note": ""
  },
  {
   "property": "C32",
   "status": "proved",
   "theorems": [
    "C32_fault_during_insert"
   ],
   "note": ""
  },
  {
   "property": "C33",
   "status": "proved",
   "theorems": [
    "C33_choose_zero",
    "C33_fast_log_2",
    "C33_calc_min_split_index"
   ],
   "note": ""
  },
  {
   "property": "C34",
   "status": "proved",
   "theorems": [
    "C34_split_pairs"
   ],
   "note": ""
  },
  {
   "property": "C35",
   "status": "partial",
   "theorems": [
    "C35_check_descendants_partial",
    "C35_single_key",
    "C35_refuted"
   ],
   "note": "False for several keys (C35_refuted); proved: exactly which keys are selected, and exactness for one key."
  },
  {
   "property": "C36",
   "status": "proved",
   "theorems": [
    "C36_inputs_distinct",
    "C36_collision_is_of_the_hash",
    "C36_every_call_hashes_nodes"
   ],
   "note": ""
  },
  {
   "property": "C37",
   "status": "partial",
   "theorems": [
    "C37_hashers",
    "C37_blake2b",
    "C37_digests",
    "C37_adaptors_partial",
    "C37_blake2b_refuted"
   ],
   "note": "Proved for every hasher the crate offers with the hash functions themselves modelled (FxHash and SeaHash: the adaptor), and for the u64 and digest adaptors with any digest; Keccak and SHA-3 return a longer squeeze, not zeros, if N > 32. False for the BLAKE2b adaptor, which panics for N = 0 and N > 64."
  },
  {
   "property": "C38",
   "status": "proved",
   "theorems": [
    "C38_node_roundtrip",
    "C38_node_encoding_injective",
    "C38_decode_total"
   ],
   "note": "bincode 1.x encoding modelled by hand."
  },
  {
   "property": "C39",
   "status": "partial",
   "theorems": [
    "C39_refuted",
    "C39_any_length",
    "C39_truncated_partial"
   ],
   "note": "False: any announced length decodes (C39_any_length); only truncated input is rejected."
  },
  {
   "property": "C40",
   "status": "proved",
   "theorems": [
    "C40_missing_root"
   ],
   "note": ""
  },
  {
   "property": "C41",
   "status": "proved",
   "theorems": [
    "C41_reference_counts_exact"
   ],
   "note": ""
  },
  {
   "property": "C42",
   "status": "partial",
   "theorems": [
    "C42_remove_twice_partial",
    "C42_exact",
    "C42_stray",
    "C42_refuted"
   ],
   "note": "Violated by the code (C42_refuted). C42_exact: harmless if and only if the first removal has not left the node with exactly one reference; C42_stray: the same for the removal of any location."
  },
  {
   "property": "C43",
   "status": "proved",
   "theorems": [
    "C43_single_get",
    "C43_insert_one"
   ],
   "note": ""
  },
  {
   "property": "C44",
   "status": "proved",
   "theorems": [
    "C44_reads_do_not_write"
   ],
   "note": ""
  },
  {
   "property": "C45",
   "status": "partial",
   "theorems": [
    "C45_rocks_restart_partial",
    "C45_only_queued_partial",
    "C45_rejected",
    "C45_refuted"
   ],
   "note": "False in general (C45_refuted); proved: on RocksDB nothing is committed, so it holds after a restart; malformed batches have no effect at all."
  },
  {
   "property": "C46",
   "status": "proved",
   "theorems": [
    "C46_insert_no_panic",
    "C46_reads_no_panic",
    "C46_any_history",
    "C46_any_history_fault",
    "C46_any_hash"
   ],
   "note": "C46_any_hash needs no assumption about the hash function. C46_any_history covers every call after any sequence of calls, removals, failures, restarts and losses of nodes; remove itself is C22. Integer overflow and capacities are C74 and C75."
  },
  {
   "property": "C47",
   "status": "proved",
   "theorems": [
    "C47_store_is_function_of_live_roots"
   ],
   "note": ""
  },
  {
   "property": "C48",
   "status": "proved",
   "theorems": [
    "C48_proof_unique",
    "C48_live"
   ],
   "note": ""
  },
  {
   "property": "C49",
   "status": "proved",
   "theorems": [
    "C49_bytes",
    "C49_bytes_states"
   ],
   "note": ""
  },
  {
   "property": "C50",
   "status": "proved",
   "theorems": [
    "C50_reference_counts_grow_slowly"
   ],
   "note": ""
  },
  {
   "property": "C51",
   "status": "proved",
   "theorems": [
    "C51_live_roots_served",
    "C51_failing_call",
    "C51_during_insert",
    "C51_during_remove",
    "C51_insert_succeeds",
    "C51_storage_error",
    "C51_extends_removal_histories"
   ],
   "note": "Inserted batches are benign and create no branch of a live root a second time (otherwise C03_refuted, C20_refuted)."
  },
  {
   "property": "C52",
   "status": "proved",
   "theorems": [
    "C52_retry"
   ],
   "note": "For benign batches that create no branch of a live root a second time."
  },
  {
   "property": "C53",
   "status": "proved",
   "theorems": [
    "C53_root_canonical"
   ],
   "note": ""
  },
  {
   "property": "C54",
   "status": "proved",
   "theorems": [
    "C54_few_absent"
   ],
   "note": ""
  },
  {
   "property": "C55",
   "status": "proved",
   "theorems": [
    "C55_few_new",
    "C55_live"
   ],
   "note": ""
  },
  {
   "property": "C56",
   "status": "proved",
   "theorems": [
    "C56_one_at_a_time",
    "C56_same_root",
    "C56_live",
    "C56_live_batch"
   ],
   "note": ""
  },
  {
   "property": "C57",
   "status": "partial",
   "theorems": [
    "C57_same_call_same_root",
    "C57_buffers_partial",
    "C57_refuted"
   ],
   "note": "Proved for equal arguments; the call sorts the keys in place and not the values, so with the same variables it is false unless the keys were sorted (C57_refuted)."
  },
  {
   "property": "C58",
   "status": "proved",
   "theorems": [
    "C58_request_order"
   ],
   "note": ""
  },
  {
   "property": "C59",
   "status": "proved",
   "theorems": [
    "C59_durable"
   ],
   "note": ""
  },
  {
   "property": "C60",
   "status": "proved",
   "theorems": [
    "C60_need_exact",
    "C60_overwrite",
    "C60_overwrite_live"
   ],
   "note": ""
  },
  {
   "property": "C61",
   "status": "proved",
   "theorems": [
    "C61_raise_limit"
   ],
   "note": ""
  },
  {
   "property": "C62",
   "status": "proved",
   "theorems": [
    "C62_below"
   ],
   "note": ""
  },
  {
   "property": "C63",
   "status": "proved",
   "theorems": [
    "C63_reinsert",
    "C63_live"
   ],
   "note": ""
  },
  {
   "property": "C64",
   "status": "proved",
   "theorems": [
    "C64_get_one",
    "C64_get",
    "C64_proof",
    "C64_stored"
   ],
   "note": "No condition on the batches."
  },
  {
   "property": "C65",
   "status": "proved",
   "theorems": [
    "C65_kept"
   ],
   "note": "No condition on the batches."
  },
  {
   "property": "C66",
   "status": "proved",
   "theorems": [
    "C66_agree"
   ],
   "note": "No condition on the batches."
  },
  {
   "property": "C67",
   "status": "proved",
   "theorems": [
    "C67_spared",
    "C67_then_remove",
    "C67_new",
    "C67_once"
   ],
   "note": "No condition on the batch or the previous root. Without the condition on counts the statement is false (C20_refuted)."
  },
  {
   "property": "C68",
   "status": "proved",
   "theorems": [
    "C68_tree_size",
    "C68_store",
    "C68_store_size"
   ],
   "note": ""
  },
  {
   "property": "C69",
   "status": "proved",
   "theorems": [
    "C69_hashes",
    "C69_one",
    "C69_from_scratch"
   ],
   "note": "C69_from_scratch also for hazardous batches, with any hash function and database."
  },
  {
   "property": "C70",
   "status": "proved",
   "theorems": [
    "C70_fetches",
    "C70_verify"
   ],
   "note": ""
  },
  {
   "property": "C71",
   "status": "proved",
   "theorems": [
    "C71_insert",
    "C71_get",
    "C71_missing"
   ],
   "note": "Encoding errors for batches without duplicate keys (of two values for one key only the last is encoded)."
  },
  {
   "property": "C72",
   "status": "partial",
   "theorems": [
    "C72_refuted",
    "C72_leaves_branches",
    "C72_first_insert",
    "C72_execution",
    "C72_data_partial",
    "C72_bincode_partial",
    "C72_json",
    "C72_cbor",
    "C72_with_visit_seq"
   ],
   "note": "False (F11): in the formats other than bincode no leaf and no branch can be decoded (C72_leaves_branches), so that every call on a returned root fails (C72_first_insert, C72_refuted). Holds with bincode (C72_bincode_partial) and for data nodes (C72_data_partial)."
  },
  {
   "property": "C73",
   "status": "partial",
   "theorems": [
    "C73_refuted",
    "C73_same_store_partial",
    "C73_same_reads_partial",
    "C73_same_inserts_partial",
    "C73_live_roots"
   ],
   "note": "False in general (F12): a pair inserted again onto the tree that has it is counted twice by HashTree and once by RocksTree, so that after removing both roots one still serves it. Proved for insertions of pairs that no live tree has, which is the missing part; reads at roots in use agree without that (C73_live_roots)."
  },
  {
   "property": "C74",
   "status": "proved",
   "theorems": [
    "C74_sessions_same",
    "C74_insert_same",
    "C74_insert_one_same",
    "C74_reads_same",
    "C74_numbers_bounded"
   ],
   "note": "Machine.v is a second transcription of the functions that do arithmetic. A depth limit of exactly usize::MAX and N = 0 are not covered. The conditions are needed (C74_needed_debug, C74_needed_release)."
  },
  {
   "property": "C75",
   "status": "partial",
   "theorems": [
    "C75_refuted",
    "C75_live_room"
   ],
   "note": "False (F13): with a limit above isize::MAX / (N + 1) generating a proof panics, although reads work. Holds if 2 * (limit + 1) * (N + 1) is at most isize::MAX; what VecDeque::with_capacity allocates is a parameter."
  },
  {
   "property": "C76",
   "status": "proved",
   "theorems": [
    "C76_sessions",
    "C76_reads",
    "C76_insert",
    "C76_insert_live"
   ],
   "note": "Under the bounds of C74 and for hashed strings shorter than 2^64 bytes. RocksDB itself is a map with a queue of writes; the bincode encoding is modelled byte by byte (Codec.v). C76_insert for batches as in C03."
  },
  {
   "property": "C77",
   "status": "partial",
   "theorems": [
    "C77_refuted",
    "C77_fxhash",
    "C77_seahash_refuted",
    "C77_seahash",
    "C77_one_collision"
   ],
   "note": "False for FxHash (F14), for every key and every value of at least 16 bytes, and for SeaHash, for every key and every value of at least 48 bytes. For a hasher without collisions among the strings hashed it holds by C07 and C14. The crates fxhash (little-endian) and seahash are modelled from their published sources; the model of SeaHash computes the test vector of its documentation."
  },
  {
   "property": "C78",
   "status": "partial",
   "theorems": [
    "C78_refuted",
    "C78_get_one_partial",
    "C78_prove",
    "C78_get_single",
    "C78_get_partial"
   ],
   "note": "False for get_one and get (F15): a missing node is reported as an absent key. Proved: exactly which keys are affected, never a wrong value; generate_inclusion_proof does report lost nodes (C78_prove); get of one key reports a lost data node and no other one (C78_get_single)."
  },
  {
   "property": "C79",
   "status": "proved",
   "theorems": [
    "C79_get_one",
    "C79_prove",
    "C79_insert"
   ],
   "note": "No condition on the batches or on the locations. For get of several keys see C78_get_partial and C06."
  },
  {
   "property": "C80",
   "status": "partial",
   "theorems": [
    "C80_refuted",
    "C80_checked_partial"
   ],
   "note": "False (F16): nodes are not hashed when they are read. Proved for reads together with a proof that verifies."
  },
  {
   "property": "C81",
   "status": "proved",
   "theorems": [
    "C81_insert",
    "C81_reads",
    "C81_remove"
   ],
   "note": "Calls that fail are included. For a genuine database the exact numbers of reads and hashes are C69 and C70."
  },
  {
   "property": "C82",
   "status": "partial",
   "theorems": [
    "C82_root",
    "C82_proof",
    "C82_pieces",
    "C82_blake",
    "C82_digests",
    "C82_fxhash_refuted"
   ],
   "note": "The formulas are proved for every hash function on the list of pieces; that the pieces may be concatenated is proved for every other hasher the crate offers. False for FxHash (F17): the pieces are hashed separately, so that the concatenation has another hash."
  },
  {
   "property": "C83",
   "status": "proved",
   "theorems": [
    "C83_get_found",
    "C83_get_same"
   ],
   "note": "No condition on the request. C83_get_found is the exact answer, also where C05 fails."
  },
  {
   "property": "C84",
   "status": "proved",
   "theorems": [
    "C84_insert_parts",
    "C84_insert_same"
   ],
   "note": "No condition on the batch except that its values can be encoded. C84_insert_parts is the exact result, also where C03 fails."
  },
  {
   "property": "C85",
   "status": "proved",
   "theorems": [
    "C85_get_one",
    "C85_get",
    "C85_proof",
    "C85_below",
    "C85_wild"
   ],
   "note": "C64 says more (the pairs of one tree) about histories without removals and losses."
  },
  {
   "property": "C86",
   "status": "partial",
   "theorems": [
    "C86_sha2",
    "C86_sha3_partial",
    "C86_sha3_refuted",
    "C86_blake_partial",
    "C86_blake_refuted",
    "C86_reads"
   ],
   "note": "Holds for SHA-256 with every N, for SHA-3 and Keccak with N at most 32, for BLAKE2b with N = 64. False otherwise (F18): other roots, and proofs that do not verify."
  },
  {
   "property": "C87",
   "status": "proved",
   "theorems": [
    "C87_get",
    "C87_get_one",
    "C87_prove"
   ],
   "note": "No condition on the database."
  },
  {
   "property": "C88",
   "status": "proved",
   "theorems": [
    "C88_same",
    "C88_serves",
    "C88_shape"
   ],
   "note": "No condition on the database."
  },
  {
   "property": "C89",
   "status": "proved",
   "theorems": [
    "C89_serves",
    "C89_insert",
    "C89_same_root",
    "C89_shape"
   ],
   "note": "Reads and insertions; removals in the other database are not covered, since they use its reference counts. Insertions as in C03."
  },
  {
   "property": "C90",
   "status": "partial",
   "theorems": [
    "C90_documented",
    "C90_insert_partial",
    "C90_insert_first",
    "C90_get_partial",
    "C90_short",
    "C90_refuted"
   ],
   "note": "Proved for batches and requests without the hazard of Spec.v, in every tree, for insertions into no tree, and for at most three keys in every database. False otherwise (F19): check_descendants then hands unpartitioned slices to partition_point, and the same batch is accepted under one release and rejected, or gives another root, under another."
  },
  {
   "property": "C91",
   "status": "proved",
   "theorems": [
    "C91_no_panic",
    "C91_remove",
    "C91_exact",
    "C91_release"
   ],
   "note": "C91_exact: a database is safe if and only if all split indices are in range (a get of two keys finds the others). Counters are unbounded there; C91_release is on machine integers that wrap around (for generate_inclusion_proof if the depth limit can be allocated, and for termination if the depth limit is below the largest number). A build that checks arithmetic can also panic on a foreign node whose count or references are near 2^64, see C74."
  }
 ]
}