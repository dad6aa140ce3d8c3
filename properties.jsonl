{"id": "C01", "title": "Insert into an empty tree, then read back", "statement": "insert(None, keys, values) with pairwise distinct keys and equally many values succeeds, and on the returned root get_one(k) is exactly the value paired with k for every inserted k and None for every other key of the right length.", "quantifier": "every key length N >= 1, every non-empty batch of distinct keys and values of any size, every key queried, every hasher with no collision among the strings hashed, every prior database state reached by inserts", "why_tests_cant": "batches and key sets are unbounded; the array-merging algorithm must be right for every pattern of split bits", "anchors": ["src/merkle_bit.rs::insert", "src/merkle_bit.rs::create_tree", "src/merkle_bit.rs::merge_nodes", "src/merkle_bit.rs::get_one"]}
{"id": "C02", "title": "insert_one is a map update", "statement": "insert_one(Some(root), k, v) on a live root holding map M succeeds (sufficient depth) and returns a root that holds M[k := v]: get_one on the new root returns v for k and M's answer for every other key.", "quantifier": "every live root of every history, every key, every value", "why_tests_cant": "quantifies over all trees that any history can produce and all keys", "anchors": ["src/merkle_bit.rs::insert_one", "src/merkle_bit.rs::generate_treerefs", "src/merkle_bit.rs::traverse_tree", "src/merkle_bit.rs::split_nodes"]}
{"id": "C03", "title": "Batch insert on an existing root is a map union", "statement": "insert(Some(root), keys, values) with distinct keys on a live root holding M succeeds and returns a root holding M overwritten by the batch; no other key of M is lost, no key appears that was in neither.", "quantifier": "every live root of every history and every batch of distinct keys of any size", "why_tests_cant": "the failing batches need a specific relation between a split bit and a byte boundary which random 32-byte keys practically never hit", "anchors": ["src/merkle_bit.rs::insert", "src/merkle_bit.rs::traverse_tree", "src/utils/tree_utils.rs::check_descendants", "src/utils/tree_utils.rs::split_pairs"]}
{"id": "C04", "title": "get_one is exact", "statement": "On a live root holding M, get_one(root,k) returns Ok(M(k)): the value if k was inserted, Ok(None) otherwise; with a too small depth limit the only other possible answer is a depth error.", "quantifier": "every history, every live root, every key, every depth limit", "why_tests_cant": "needs every reachable tree shape and every absent key", "anchors": ["src/merkle_bit.rs::get_one"]}
{"id": "C05", "title": "Multi-key get is exact", "statement": "On a live root holding M, get(root, keys) returns a map giving, for every requested key k, exactly M(k).", "quantifier": "every live root, every non-empty list of requested keys in any order with any mixture of present and absent keys", "why_tests_cant": "the failing requests mix present and absent keys that part from the tree inside one byte: random tests never produce them", "anchors": ["src/merkle_bit.rs::get", "src/utils/tree_utils.rs::check_descendants", "src/utils/tree_utils.rs::split_pairs"]}
{"id": "C06", "title": "Multi-key get never answers wrongly about values", "statement": "If get(root, keys) succeeds the key set of the answer is exactly the set of requested keys, and every Some(v) in it is the value the root holds for that key (it never returns a value for a key the root does not hold, nor another key's value).", "quantifier": "every live root and every list of requested keys, with no side condition on the keys", "why_tests_cant": "ranges over all trees and all request lists", "anchors": ["src/merkle_bit.rs::get", "src/utils/tree_utils.rs::generate_leaf_map"]}
{"id": "C07", "title": "Old roots are immutable under later inserts", "statement": "Once an insert has returned a root holding M, every later read of any key on that root gives M's answer, however many further inserts (successful or failing, on any root) have been performed, as long as nothing is removed.", "quantifier": "every finite history of insert and insert_one calls of any length", "why_tests_cant": "quantifies over unbounded histories", "anchors": ["src/merkle_bit.rs::insert", "src/merkle_bit.rs::insert_one", "src/merkle_bit.rs::get_one"]}
{"id": "C08", "title": "A failing insert damages no root", "statement": "Whatever error insert or insert_one returns (duplicate keys, missing root, depth exceeded, encoding failure) every root that was live before the call still reads exactly as before.", "quantifier": "every history, every argument list, every error outcome", "why_tests_cant": "needs every error point of the traversal in every tree", "anchors": ["src/merkle_bit.rs::insert", "src/merkle_bit.rs::traverse_tree", "src/utils/tree_utils.rs::generate_tree_ref_queue"]}
{"id": "C09", "title": "The root depends only on the contents", "statement": "Two insert histories that end in roots holding the same key/value map return the same root hash, whatever the order, batching or starting point of the insertions, and whatever the storage backend.", "quantifier": "all pairs of histories, all batch partitions and orders", "why_tests_cant": "the number of histories leading to one map is unbounded", "anchors": ["src/merkle_bit.rs::create_tree", "src/merkle_bit.rs::merge_nodes", "src/utils/tree_utils.rs::generate_tree_ref_queue"]}
{"id": "C10", "title": "The root commits to the contents", "statement": "If two histories return the same root hash, then the two roots hold the same map, unless two different strings among those hashed have the same hash.", "quantifier": "all pairs of histories", "why_tests_cant": "needs all pairs of maps", "anchors": ["src/merkle_bit.rs::merge_nodes", "src/merkle_bit.rs::insert_leaves"]}
{"id": "C11", "title": "Generated inclusion proofs verify", "statement": "For every live root holding M, every key k with M(k)=v and a sufficient depth limit, generate_inclusion_proof(root,k) succeeds and verify_inclusion_proof(root,k,v,proof) returns Ok.", "quantifier": "every live root and every key it holds", "why_tests_cant": "all tree shapes and depths", "anchors": ["src/merkle_bit.rs::generate_inclusion_proof", "src/merkle_bit.rs::verify_inclusion_proof"]}
{"id": "C12", "title": "Inclusion proofs are sound for genuine roots", "statement": "If verify_inclusion_proof(root,k,v,proof) returns Ok for a root returned by insert, then that root holds v at k, unless two different strings hashed by the tree or by the verifier have the same hash.", "quantifier": "every root of every history, every key, every value and every adversarially chosen proof", "why_tests_cant": "quantifies over all proofs an attacker may send", "anchors": ["src/merkle_bit.rs::verify_inclusion_proof"]}
{"id": "C13", "title": "No inclusion proof for absent keys", "statement": "generate_inclusion_proof on a live root for a key it does not hold returns an error (never a proof).", "quantifier": "every live root and every absent key", "why_tests_cant": "all trees, all absent keys", "anchors": ["src/merkle_bit.rs::generate_inclusion_proof"]}
{"id": "C14", "title": "A genuine root proves at most one value per key", "statement": "For a root returned by insert, if two proofs verify for the same key with values v1 and v2 then v1 = v2 (no collision among the strings hashed).", "quantifier": "every root, key, pair of values, pair of proofs", "why_tests_cant": "all attacker-chosen proofs", "anchors": ["src/merkle_bit.rs::verify_inclusion_proof"]}
{"id": "C15", "title": "A root proves at most one value per key even if it is not genuine", "statement": "For an arbitrary root hash (for instance one received from an untrusted party) two verifying proofs for one key have the same value unless a hash collision is exhibited.", "quantifier": "every root hash, key, values and proofs", "why_tests_cant": "needs an adversarially built root; the verifier never compares the path with the key's bits", "anchors": ["src/merkle_bit.rs::verify_inclusion_proof"]}
{"id": "C16", "title": "Malformed batches are rejected without effect", "statement": "insert with different numbers of keys and values, or with no keys, returns an error and leaves the database unchanged.", "quantifier": "every database state, every previous root, every argument lists of unequal or zero length", "why_tests_cant": "all states and arguments", "anchors": ["src/merkle_bit.rs::insert"]}
{"id": "C17", "title": "Duplicate keys in a batch are rejected", "statement": "insert(None, keys, values) where some key occurs twice always returns an error; on a previous root it never returns Ok either.", "quantifier": "every batch with a repeated key, every previous root, every state", "why_tests_cant": "all positions and multiplicities of the duplicates", "anchors": ["src/merkle_bit.rs::insert", "src/utils/tree_utils.rs::generate_tree_ref_queue"]}
{"id": "C18", "title": "Batch order is irrelevant", "statement": "Permuting the (key, value) pairs of a batch with distinct keys changes neither the outcome of insert nor the resulting database.", "quantifier": "every batch, every permutation, every state and previous root", "why_tests_cant": "n! permutations", "anchors": ["src/merkle_bit.rs::insert"]}
{"id": "C19", "title": "Insert then remove leaves an empty database", "statement": "Starting from an empty database, insert(None, keys, values) with distinct keys followed by remove of the returned root leaves the database with no entry at all.", "quantifier": "every batch of distinct keys", "why_tests_cant": "all tree shapes", "anchors": ["src/merkle_bit.rs::insert", "src/merkle_bit.rs::remove"]}
{"id": "C20", "title": "Removing a root does not affect other roots", "statement": "remove(r) only deletes elements referenced by r alone: every other root returned by insert and not removed still reads exactly as before.", "quantifier": "every history of inserts and removes, every surviving root, every key", "why_tests_cant": "the failing histories require two roots sharing a branch that was rebuilt rather than referenced", "anchors": ["src/merkle_bit.rs::remove", "src/merkle_bit.rs::merge_nodes", "src/merkle_bit.rs::traverse_tree"]}
{"id": "C21", "title": "Removing every root frees all storage", "statement": "After every root returned by insert has been removed (once per insert) the database is empty.", "quantifier": "every history of inserts and removes", "why_tests_cant": "unbounded histories of sharing and updating", "anchors": ["src/merkle_bit.rs::remove", "src/merkle_bit.rs::insert_leaves", "src/merkle_bit.rs::traverse_tree"]}
{"id": "C22", "title": "remove is total and terminates on any database", "statement": "remove returns Ok(()) after finitely many steps, at most one pop per stored reference, on every database content whatsoever: unknown roots, dangling pointers, shared or cyclic graphs, zero reference counts. For an unknown root it changes nothing.", "quantifier": "every database content, including corrupted and cyclic ones, every root argument", "why_tests_cant": "all finite graphs", "anchors": ["src/merkle_bit.rs::remove"]}
{"id": "C23", "title": "A removed root reads as empty", "statement": "After remove(r), when r has been returned once and is not part of another live root, get and get_one on r return None for every key and insert on r fails.", "quantifier": "every history with fresh writes, every root, every key", "why_tests_cant": "all histories", "anchors": ["src/merkle_bit.rs::remove", "src/merkle_bit.rs::get", "src/merkle_bit.rs::get_one"]}
{"id": "C24", "title": "Depth limit 8N never rejects", "statement": "With a depth limit of at least 8*N, get and insert on a live root never fail with a depth error; with at least 8*N+1 neither do get_one and generate_inclusion_proof.", "quantifier": "every live root, every key list", "why_tests_cant": "the deepest tree needs 8N+1 keys arranged adversarially", "anchors": ["src/merkle_bit.rs::get", "src/merkle_bit.rs::get_one", "src/merkle_bit.rs::traverse_tree", "src/merkle_bit.rs::generate_inclusion_proof"]}
{"id": "C25", "title": "Successful inserts are readable under the same depth limit", "statement": "If insert returns Ok(root) then get on every inserted key succeeds with the same tree object, and get_one succeeds whenever get does.", "quantifier": "every depth limit, every batch", "why_tests_cant": "needs trees exactly at the limit", "anchors": ["src/merkle_bit.rs::insert", "src/merkle_bit.rs::get", "src/merkle_bit.rs::get_one"]}
{"id": "C26", "title": "Reads terminate on any database", "statement": "get, get_one and generate_inclusion_proof stop after a number of node fetches bounded by the depth limit (times the number of keys for get) whatever the database contains, including cyclic or dangling graphs; insert's traversal too.", "quantifier": "every database content, root, key list and depth limit", "why_tests_cant": "all finite graphs, including cyclic ones", "anchors": ["src/merkle_bit.rs::get", "src/merkle_bit.rs::get_one", "src/merkle_bit.rs::generate_inclusion_proof", "src/merkle_bit.rs::traverse_tree"]}
{"id": "C27", "title": "Stored branches describe their subtree", "statement": "In the database exposed by decompose, every branch below a live root has count = number of keys below it, split_index = the first bit where those keys differ, key = the smallest of them, zero/one = the halves with bit 0/1 at split_index, and split indices strictly increase downwards.", "quantifier": "every live root of every insert history, every branch below it", "why_tests_cant": "all reachable trees", "anchors": ["src/merkle_bit.rs::merge_nodes", "src/tree/tree_branch.rs"]}
{"id": "C28", "title": "Insertion only adds nodes", "statement": "A successful insert changes no stored node except its reference count and deletes none; insert_one adds at most two nodes plus one branch per level of the new key's path.", "quantifier": "every state, every insert", "why_tests_cant": "all trees", "anchors": ["src/merkle_bit.rs::insert", "src/merkle_bit.rs::insert_one"]}
{"id": "C29", "title": "RocksTree: a crash during insert loses no earlier root", "statement": "If the process dies at any point of insert or insert_one on the RocksDB backend, the durable database left behind still serves every earlier returned root unchanged.", "quantifier": "every crash point (between any two database operations), every history, every insert", "why_tests_cant": "crash points cannot be enumerated by unit tests", "anchors": ["src/tree_db/rocksdb.rs::batch_write", "src/merkle_bit.rs::insert", "src/merkle_bit.rs::merge_nodes"]}
{"id": "C30", "title": "RocksTree: a crash during remove loses no other root", "statement": "If the process dies at any point of remove(r) on the RocksDB backend, every other live root is served unchanged from the durable database.", "quantifier": "every crash point, every fresh-write history, every removed root", "why_tests_cant": "crash points", "anchors": ["src/tree_db/rocksdb.rs::remove", "src/merkle_bit.rs::remove"]}
{"id": "C31", "title": "Backends agree", "statement": "The HashMap backend and the RocksDB backend (whose reads do not see queued writes) return the same roots and the same read results on the same history of insertions.", "quantifier": "every history", "why_tests_cant": "all histories; the backends differ in read-your-writes", "anchors": ["src/tree_db/hashmap.rs", "src/tree_db/rocksdb.rs", "src/merkle_bit.rs::insert_leaves"]}
{"id": "C32", "title": "A storage error at any point loses no root", "statement": "If any single database operation issued by insert fails with an exception, insert returns an error and every earlier root still reads unchanged.", "quantifier": "every failing operation position, every history", "why_tests_cant": "every failure position in every traversal", "anchors": ["src/traits.rs::Database", "src/merkle_bit.rs::insert"]}
{"id": "C33", "title": "Bit arithmetic is exact", "statement": "choose_zero(key,i) is true iff bit i (most significant first) of key is 0 and errs iff i is outside the key; fast_log_2 is the floor of log2 for every non-zero byte; calc_min_split_index on sorted keys returns the first bit at which the keys and the branch key do not all agree, or 8N-1 when they all agree.", "quantifier": "every key length, every key, every index, every byte, every non-empty sorted key list", "why_tests_cant": "unbounded key lengths and lists", "anchors": ["src/utils/tree_utils.rs::choose_zero", "src/utils/tree_utils.rs::fast_log_2", "src/utils/tree_utils.rs::calc_min_split_index"]}
{"id": "C34", "title": "split_pairs partitions sorted keys by a bit", "statement": "For sorted keys that agree on all bits before `bit`, split_pairs returns the keys with bit 0 followed by the keys with bit 1, losing and inventing nothing.", "quantifier": "every sorted key list, every bit index inside the key", "why_tests_cant": "unbounded lists", "anchors": ["src/utils/tree_utils.rs::split_pairs"]}
{"id": "C35", "title": "check_descendants selects exactly the keys below a branch", "statement": "Given sorted keys, a branch key, its split index and the minimum split index computed by calc_min_split_index, check_descendants returns exactly the keys agreeing with the branch key on all bits before the split index.", "quantifier": "every sorted key list and branch", "why_tests_cant": "the counterexample needs misaligned bit positions across a byte boundary", "anchors": ["src/utils/tree_utils.rs::check_descendants"]}
{"id": "C36", "title": "Hash inputs of different nodes are different strings", "statement": "Two different nodes (data, leaf or branch) are hashed from different byte strings: the one-byte tags and fixed lengths make the encoding injective, so a location clash between different nodes exhibits a collision of the hash function itself.", "quantifier": "all keys, values and locations of length N", "why_tests_cant": "all inputs", "anchors": ["src/merkle_bit.rs::insert_leaves", "src/merkle_bit.rs::merge_nodes", "src/merkle_bit.rs::verify_inclusion_proof"]}
{"id": "C37", "title": "Hashers produce N bytes", "statement": "For every key length N each built-in hash adaptor returns exactly N bytes: the digest truncated to N or padded with zeros.", "quantifier": "every N, every digest length", "why_tests_cant": "unbounded N", "anchors": ["src/tree_hasher/default.rs", "src/tree_hasher/sha256.rs", "src/traits.rs::Hasher for Digest"]}
{"id": "C38", "title": "Stored nodes survive serialization", "statement": "Encoding any node with bincode and decoding it again yields the same node, so that what RocksTree reads back is what it wrote.", "quantifier": "every node: every N, every u64 count, every value length below 2^64", "why_tests_cant": "unbounded values", "anchors": ["src/tree/tree_node.rs", "src/tree/tree_branch.rs", "src/tree/tree_leaf.rs", "src/tree/tree_data.rs", "src/lib.rs::Array"]}
{"id": "C39", "title": "Arrays of the wrong length are rejected when decoding", "statement": "Decoding a serialized Array<N> whose length is not N returns an error.", "quantifier": "every N and every byte string", "why_tests_cant": "all lengths", "anchors": ["src/lib.rs::ArrayVisitor"]}
{"id": "C40", "title": "Missing roots are reported consistently", "statement": "On a root hash that is not stored, get returns None for every requested key, get_one returns None, generate_inclusion_proof fails, remove succeeds without effect, and insert on it fails.", "quantifier": "every database state, every root hash not in it", "why_tests_cant": "all states", "anchors": ["src/merkle_bit.rs::get", "src/merkle_bit.rs::get_one", "src/merkle_bit.rs::generate_inclusion_proof", "src/merkle_bit.rs::insert", "src/merkle_bit.rs::remove"]}
{"id": "C41", "title": "Reference counts are exact", "statement": "In a history where no insert rewrites a key/value pair some live root already holds, every stored node's reference count equals the number of stored nodes pointing to it plus the number of live root handles on it, and is positive.", "quantifier": "every such history of inserts and removes", "why_tests_cant": "unbounded histories", "anchors": ["src/merkle_bit.rs::remove", "src/merkle_bit.rs::split_nodes", "src/merkle_bit.rs::insert_leaf", "src/merkle_bit.rs::merge_nodes"]}
{"id": "C42", "title": "Removing the same root twice is harmless", "statement": "Calling remove(r) a second time has no effect on other live roots.", "quantifier": "every history", "why_tests_cant": "needs a root that became a subtree of another", "anchors": ["src/merkle_bit.rs::remove"]}
{"id": "C43", "title": "get on one key agrees with get_one; insert of one pair agrees with insert_one", "statement": "get(root,[k]) and get_one(root,k) give the same answer (sufficient depth), and insert(prev,[k],[v]) and insert_one(prev,k,v) return the same result and leave the same database.", "quantifier": "every state, root, key, value", "why_tests_cant": "all states", "anchors": ["src/merkle_bit.rs::get", "src/merkle_bit.rs::get_one", "src/merkle_bit.rs::insert", "src/merkle_bit.rs::insert_one"]}
{"id": "C44", "title": "Reads do not write", "statement": "get, get_one, generate_inclusion_proof and verify_inclusion_proof leave the database unchanged on every input and outcome.", "quantifier": "every database content and argument", "why_tests_cant": "all states", "anchors": ["src/merkle_bit.rs::get", "src/merkle_bit.rs::get_one", "src/merkle_bit.rs::generate_inclusion_proof", "src/merkle_bit.rs::verify_inclusion_proof"]}
{"id": "C45", "title": "A failing insert has no lasting effect", "statement": "After an insert that returned an error, later operations behave as if it had never been called (in particular a later remove of an older root frees it).", "quantifier": "every history with a failing insert", "why_tests_cant": "needs failing calls interleaved with removes", "anchors": ["src/merkle_bit.rs::insert", "src/merkle_bit.rs::insert_leaves"]}
{"id": "C46", "title": "The public methods never panic", "statement": "In every state reachable by insertions, removals (also of roots removed before, and of anything else), failing calls, crashes, storage errors and loss of nodes, insert, insert_one, get, get_one and generate_inclusion_proof with any arguments whatsoever return Ok or Err: no index is out of bounds, no unwrap fails, no loop runs forever.", "quantifier": "every reachable state and all arguments (roots that are not roots, duplicate keys, any depth limit)", "why_tests_cant": "all states and arguments", "anchors": ["src/merkle_bit.rs::insert", "src/merkle_bit.rs::get", "src/merkle_bit.rs::get_one", "src/merkle_bit.rs::generate_inclusion_proof", "src/merkle_bit.rs::merge_nodes"]}
{"id": "C47", "title": "What is stored depends only on the live roots", "statement": "In histories of inserts and removes where no insert rewrites a pair some live root holds, the database content (every node and every reference count) is determined by the roots still live: two histories leaving the same roots live leave identical databases, whatever else was inserted and removed in between and in whatever order.", "quantifier": "every two such histories", "why_tests_cant": "quantifies over pairs of histories", "anchors": ["src/merkle_bit.rs::insert", "src/merkle_bit.rs::remove", "src/merkle_bit.rs::insert_leaves", "src/merkle_bit.rs::split_nodes", "src/merkle_bit.rs::merge_nodes"]}
{"id": "C48", "title": "A key of a genuine root has one proof", "statement": "For a root returned by insert holding v at k, every proof accepted by verify_inclusion_proof(root,k,v,proof) has the hashes of the proof generate_inclusion_proof returns, and the same directions from the leaf upwards (the directions of the first two entries are ignored by the verifier), unless a hash collision is exhibited.", "quantifier": "every history, root, key, value and proof", "why_tests_cant": "all byte strings offered as proofs", "anchors": ["src/merkle_bit.rs::verify_inclusion_proof", "src/merkle_bit.rs::generate_inclusion_proof"]}
{"id": "C49", "title": "RocksTree on bytes behaves as on nodes", "statement": "Running any sequence of tree operations against the RocksDB backend, which stores bincode-encoded bytes and decodes on every read, gives the same outcomes as running it against a store of nodes, and the bytes stored at every moment are the encodings of those nodes, as long as counters and lengths stay below 2^64.", "quantifier": "every database and every program of database operations", "why_tests_cant": "all nodes and executions", "anchors": ["src/tree_db/rocksdb.rs::get_node", "src/tree_db/rocksdb.rs::insert", "src/tree_db/rocksdb.rs::batch_write", "src/lib.rs::ArrayVisitor", "src/traits.rs::Encode"]}
{"id": "C50", "title": "Reference counts cannot overflow in practice", "statement": "Whatever the database, no call raises any reference count above the previous maximum by more than the number of nodes it writes; hence the u64 counters cannot overflow before 2^64 node writes.", "quantifier": "every database content, call and argument", "why_tests_cant": "an overflow would need 2^64 writes", "anchors": ["src/merkle_bit.rs::insert", "src/merkle_bit.rs::remove", "src/merkle_bit.rs::insert_leaf", "src/merkle_bit.rs::split_nodes"]}
{"id": "C51", "title": "Failures and interruptions never damage live roots", "statement": "In histories that mix inserts (that do not create again a branch some live root already has), removes, failing calls with any arguments, calls cut short after any database operation (crash, storage error, abandoned), lost queued writes and forgotten roots, with no cleanup in between, every root still in use serves exactly its pairs (get, get_one, proofs), at every moment including in the middle of the calls; a later remove never takes away a node a live root needs; and well-formed inserts and removes keep succeeding.", "quantifier": "every such history, every live root, every intermediate state", "why_tests_cant": "every interleaving of failures with inserts and removes", "anchors": ["src/merkle_bit.rs::insert", "src/merkle_bit.rs::remove", "src/merkle_bit.rs::insert_leaves", "src/merkle_bit.rs::merge_nodes", "src/tree_db/rocksdb.rs::batch_write"]}
{"id": "C52", "title": "An insert interrupted by a storage error can be repeated", "statement": "If any database operation of an insert fails, repeating the same insert succeeds and returns the very root it would have returned without the failure, and that root and all live ones then serve their pairs.", "quantifier": "every reachable state, batch and failing operation", "why_tests_cant": "a failure at every operation of every insert", "anchors": ["src/merkle_bit.rs::insert", "src/tree_db/rocksdb.rs::insert", "src/tree_db/rocksdb.rs::batch_write"]}
{"id": "C53", "title": "Roots identify contents also after removals and failures", "statement": "Two live roots of two histories with removes, failures and interruptions, on the same or different backends, are equal exactly when the pairs they hold are equal, unless a hash collision is exhibited.", "quantifier": "every two such histories and roots", "why_tests_cant": "quantifies over pairs of histories", "anchors": ["src/merkle_bit.rs::insert", "src/merkle_bit.rs::remove"]}
{"id": "C54", "title": "A multi-key read of stored keys returns all of them", "statement": "get for any set of keys of which at most one is absent from the tree (in particular for keys that are all stored) reports every stored key with its value and the absent one as absent, without any condition on the shape of the keys; the same holds for every request for at most two different keys, and for one-byte keys for every request.", "quantifier": "every history with inserts, removes, failures and interruptions, every live root, every such request", "why_tests_cant": "all key sets; the routing defect (C05) needs two absent keys and a present one of a special shape", "anchors": ["src/merkle_bit.rs::get", "src/utils/tree_utils.rs::check_descendants", "src/utils/tree_utils.rs::split_pairs"]}
{"id": "C55", "title": "A batch that adds at most one key is a map update", "statement": "insert of a batch in which at most one key is new to the tree (in particular a batch that only overwrites values), or that has at most two keys, succeeds and returns a root that serves exactly the updated map.", "quantifier": "every reachable state, root and such batch", "why_tests_cant": "all key sets and batches", "anchors": ["src/merkle_bit.rs::insert", "src/merkle_bit.rs::traverse_tree", "src/utils/tree_utils.rs::check_descendants"]}
{"id": "C56", "title": "Inserting one pair at a time implements any batch", "statement": "Calling insert_one for each pair in turn, starting from a root or from nothing, succeeds for any sequence of pairs (keys may repeat) and the last root serves the map with the pairs written in this order; earlier roots still serve their maps; where the batch insert works it returns the same root.", "quantifier": "every reachable state and sequence of pairs, of any length", "why_tests_cant": "all sequences of any length; equality with the batch for all of them", "anchors": ["src/merkle_bit.rs::insert_one", "src/merkle_bit.rs::insert"]}
{"id": "C57", "title": "Repeating an insert returns the same root", "statement": "Calling insert again with the same keys and values variables, any number of calls later, returns the same root.", "quantifier": "every reachable state, batch and sequence of calls in between", "why_tests_cant": "all batches and interleavings", "anchors": ["src/merkle_bit.rs::insert", "src/merkle_bit.rs::get"]}
{"id": "C58", "title": "The order of a multi-key request is irrelevant", "statement": "get with the same keys in another order has the same outcome, whatever the database contains.", "quantifier": "every database content, depth limit and request", "why_tests_cant": "all permutations of all requests on all databases", "anchors": ["src/merkle_bit.rs::get", "src/utils/tree_utils.rs::generate_leaf_map"]}
{"id": "C59", "title": "A successful call is durable", "statement": "On RocksTree, once insert, insert_one or remove has returned successfully, closing and reopening the database loses nothing: every write is committed, including any that earlier failing calls had left in the queue.", "quantifier": "every database content and queue, every argument", "why_tests_cant": "restarts after every possible call from every possible state", "anchors": ["src/merkle_bit.rs::create_tree", "src/merkle_bit.rs::merge_nodes", "src/merkle_bit.rs::remove", "src/tree_db/rocksdb.rs::batch_write"]}
{"id": "C60", "title": "The depth limit a key needs is the length of its proof", "statement": "For a key stored under a live root with an inclusion proof of length L: generate_inclusion_proof and get_one succeed with depth limit D exactly if L <= D + 1, get of that key exactly if L <= D + 2, overwriting it with insert_one exactly if L <= D + 2; otherwise they return the depth error. L is at most 8N + 2 and at most the number of keys plus one.", "quantifier": "every history, live root, stored key and limit", "why_tests_cant": "all trees and all limits; the off-by-one differences between the calls", "anchors": ["src/merkle_bit.rs::get", "src/merkle_bit.rs::get_one", "src/merkle_bit.rs::generate_inclusion_proof", "src/merkle_bit.rs::insert_one", "src/merkle_bit.rs::traverse_tree"]}
{"id": "C61", "title": "Raising the depth limit never changes a result", "statement": "If a call does not return the depth error with limit D, then with any larger limit it returns the same result, leaves the same database and hashes the same strings.", "quantifier": "every database content (also corrupt), argument and pair of limits", "why_tests_cant": "all databases and all limits", "anchors": ["src/merkle_bit.rs::get", "src/merkle_bit.rs::get_one", "src/merkle_bit.rs::generate_inclusion_proof", "src/merkle_bit.rs::insert", "src/merkle_bit.rs::insert_one"]}
{"id": "C62", "title": "Every node of a live tree is a root", "statement": "The location of a branch below a live root is a root that serves exactly the pairs of the map whose keys agree with the branch's key up to its split index, and its count is the number of these pairs; the location of a leaf is a root that serves exactly its pair.", "quantifier": "every history, live root and node below it", "why_tests_cant": "all trees and all nodes in them", "anchors": ["src/merkle_bit.rs::get", "src/merkle_bit.rs::get_one", "src/merkle_bit.rs::generate_inclusion_proof", "src/merkle_bit.rs::merge_nodes"]}
{"id": "C63", "title": "Inserting pairs that are already there returns the same root", "statement": "insert of a batch whose pairs are all in the tree returns the root it was given, without any condition on the shape of the keys.", "quantifier": "every reachable state, root and such batch", "why_tests_cant": "all trees and batches", "anchors": ["src/merkle_bit.rs::insert", "src/merkle_bit.rs::traverse_tree", "src/merkle_bit.rs::create_tree"]}
{"id": "C64", "title": "Nothing is read that was not inserted, whatever the batches", "statement": "For a root returned by insert, with any batches whatsoever given to the calls it results from: get_one and get return only values that these calls were given for the key, and fail with nothing but the depth error; a proof that verifies against the root, from any source, is for a pair these calls were given; every leaf stored below the root holds such a pair.", "quantifier": "every history of inserts with arbitrary batches, reads, failures and crashes; every root, key and proof", "why_tests_cant": "all histories, including the batches that are routed wrongly (F1), and all proofs an adversary might submit", "anchors": ["src/merkle_bit.rs::insert", "src/merkle_bit.rs::get", "src/merkle_bit.rs::get_one", "src/merkle_bit.rs::verify_inclusion_proof", "src/merkle_bit.rs::traverse_tree"]}
{"id": "C65", "title": "No inserted pair is dropped, whatever the batches", "statement": "For a root returned by insert, with any batches whatsoever: for every key given to the calls it results from, a leaf with the value given last is stored below the root. A key that cannot be read (F1) is misplaced, not deleted.", "quantifier": "every history of inserts with arbitrary batches, reads, failures and crashes; every root and key", "why_tests_cant": "all histories, including the batches that are routed wrongly", "anchors": ["src/merkle_bit.rs::insert", "src/merkle_bit.rs::traverse_tree", "src/merkle_bit.rs::create_tree"]}
{"id": "C66", "title": "Reads and proofs agree, whatever the batches", "statement": "For a root returned by insert, with any batches whatsoever: if get_one returns a value, generate_inclusion_proof with the same limit returns a proof that verifies for this value; if get_one returns None, generate_inclusion_proof reports that the key is not found; if get_one fails, generate_inclusion_proof fails in the same way.", "quantifier": "every history of inserts with arbitrary batches, reads, failures and crashes; every root, key and limit", "why_tests_cant": "all histories and trees, also those that are out of order", "anchors": ["src/merkle_bit.rs::get_one", "src/merkle_bit.rs::generate_inclusion_proof", "src/merkle_bit.rs::verify_inclusion_proof"]}
{"id": "C67", "title": "Calls whose result is not used spare the roots in use", "statement": "Any call with any arguments (any batch, also one that is routed wrongly; any previous root, also a removed one or one that never was a root), complete or cut short, leaves every root in use serving exactly its pairs, and a later remove of one of them leaves the others intact, provided each branch the call makes that is in the tree of a root in use has a reference count of at most one there. This holds in particular if the branches the call makes are not in the database, or if no node of the database is counted more than once.", "quantifier": "every history with removals, failures and interruptions, every call, every state in the middle of it", "why_tests_cant": "all histories and all arguments, including those for which insert returns a wrong root", "anchors": ["src/merkle_bit.rs::insert", "src/merkle_bit.rs::remove", "src/merkle_bit.rs::traverse_tree", "src/merkle_bit.rs::merge_nodes"]}
{"id": "C68", "title": "Storage taken by a tree", "statement": "The nodes stored below a root that holds m keys are exactly 3m-1. As long as no call fails and the pairs inserted are new, the database holds exactly the nodes below the roots in use, hence at most the sum of these numbers, and exactly 3m-1 nodes when one root of m keys is left, whatever was inserted and removed before.", "quantifier": "every history and root", "why_tests_cant": "all histories; a leak of a single node in some history would not show in any test", "anchors": ["src/merkle_bit.rs::insert", "src/merkle_bit.rs::remove", "src/merkle_bit.rs::create_tree"]}
{"id": "C69", "title": "Hashes computed by an insertion", "statement": "An insertion hashes exactly as many strings as there are nodes on the ways to the inserted keys in the resulting tree: the untouched parts are not rehashed. A single key costs as many hashes as its inclusion proof in the new tree has entries; a batch of m keys into an empty tree costs 3m-1, whatever the database contains.", "quantifier": "every history, previous root, batch without hazard, limit", "why_tests_cant": "all trees and all batches", "anchors": ["src/merkle_bit.rs::insert", "src/merkle_bit.rs::insert_one", "src/merkle_bit.rs::traverse_tree", "src/merkle_bit.rs::create_tree", "src/merkle_bit.rs::insert_leaves"]}
{"id": "C70", "title": "Database reads and hashes needed for one key", "statement": "get_one and generate_inclusion_proof of a key in the tree read exactly as many nodes as the inclusion proof of the key has entries, or limit+1 if this is smaller (they then fail); verifying a proof that is accepted costs one hash per entry.", "quantifier": "every history, live root, key in it and limit; every proof, root, key and value", "why_tests_cant": "all trees and all proofs", "anchors": ["src/merkle_bit.rs::get_one", "src/merkle_bit.rs::generate_inclusion_proof", "src/merkle_bit.rs::verify_inclusion_proof"]}
{"id": "C71", "title": "Errors name their cause", "statement": "insert on a live root (or without root) of a batch with as many values as keys: it reports an encoding error if and only if a value cannot be encoded; otherwise the depth error if and only if get of the same keys on the same root with the same limit reports it; otherwise duplicate keys if a key occurs twice; otherwise it succeeds (or, only for batches with the hazard of F1, reports duplicate keys). get on a live root fails with nothing but the depth error, and without the hazard exactly if it does so for one of the keys alone. insert on a root that is not stored reports the missing root, generate_inclusion_proof a missing node.", "quantifier": "every history, root, batch and limit; every database for missing roots", "why_tests_cant": "all trees, batches and limits", "anchors": ["src/merkle_bit.rs::insert", "src/merkle_bit.rs::get", "src/merkle_bit.rs::traverse_tree", "src/merkle_bit.rs::generate_treerefs", "src/merkle_bit.rs::generate_inclusion_proof"]}
{"id": "C72", "title": "Stored nodes are readable with every serialization feature", "statement": "Whichever serialization feature is enabled (bincode, json, cbor, yaml, pickle, ron), a tree stored in RocksDB can be read back: for every root returned by insert, get, get_one, generate_inclusion_proof, remove and further inserts do not fail for lack of a decodable node.", "quantifier": "every format that gives back the documents it writes, every node, call and database; JSON concretely, at the level of its text", "why_tests_cant": "all nodes and trees; the test suite runs the other formats only with the in-memory backend, which never serializes", "anchors": ["src/lib.rs::ArrayVisitor", "src/lib.rs::Array", "src/tree/tree_node.rs::encode", "src/tree/tree_node.rs::decode", "src/tree_db/rocksdb.rs::get_node"]}
{"id": "C73", "title": "HashTree and RocksTree hold the same data after the same calls", "statement": "The same insertions and removals on a HashTree and on a RocksTree, either restarted between calls at will, leave equal databases, node by node and reference count by reference count; every later read, proof and insertion then gives the same result or the same error.", "quantifier": "every sequence of insertions and removals, every root, key and limit, any two backends", "why_tests_cant": "all call sequences on both backends; the counts differ only through writes that one backend queues, and the difference shows up only after later removals", "anchors": ["src/merkle_bit.rs::insert_leaves", "src/merkle_bit.rs::insert_leaf", "src/merkle_bit.rs::remove", "src/tree_db/rocksdb.rs::insert", "src/tree_db/rocksdb.rs::get_node", "src/tree_db/hashmap.rs::insert"]}
{"id": "C74", "title": "No integer overflow in any realistic use", "statement": "Debug builds (overflow panics) and release builds (overflow wraps) behave alike, and as if integers were unbounded: same results, same database after every operation, same behaviour when the database fails, for any sequence of calls, failing calls, removals and restarts in which fewer than 2^64 keys are inserted and nodes written in all and fewer than 2^32 nodes in one call. No reference count ever exceeds the number of nodes written, no key count of a branch the number of keys inserted by more than one.", "quantifier": "every sequence of operations with any arguments, every build (widths of the integers, checked or wrapping), every database operation failing", "why_tests_cant": "overflows need histories far longer than a test can run; the stored counters depend on the whole history", "anchors": ["src/merkle_bit.rs::insert_leaf", "src/merkle_bit.rs::insert_leaves", "src/merkle_bit.rs::merge_nodes", "src/merkle_bit.rs::split_nodes", "src/utils/tree_utils.rs::calc_min_split_index", "src/utils/tree_utils.rs::check_descendants", "src/utils/tree_ref.rs::TreeRef"]}
{"id": "C75", "title": "Proofs are available under every depth limit that allows reads", "statement": "For a live root, a limit of at least 8N+1 and a key in the tree: if get_one returns the value then generate_inclusion_proof returns a proof that verifies, however large the limit.", "quantifier": "every history, live root, key and limit, 32-bit or 64-bit", "why_tests_cant": "all limits; the failure depends on the numeric range of the limit and not on the tree", "anchors": ["src/merkle_bit.rs::generate_inclusion_proof", "src/merkle_bit.rs::get_one"]}
{"id": "C76", "title": "The deployed stack: machine integers over serialized RocksDB nodes", "statement": "A release or debug build on RocksDB with bincode, executing any sequence of calls, failing calls, removals and restarts over the stored bytes, has the outcomes of the abstract tree and stores exactly the serialization of its nodes; a root in use answers get_one, get and generate_inclusion_proof from the bytes with the contents of its map, and an insertion leaves bytes from which the new root reads the union.", "quantifier": "every sequence of operations within the bounds of C74, every root in use, every key, batches as in C03", "why_tests_cant": "all histories at once; the layers (bit arithmetic, counters, serialization, queueing) are tested separately", "anchors": ["src/merkle_bit.rs::insert", "src/merkle_bit.rs::get", "src/merkle_bit.rs::get_one", "src/merkle_bit.rs::generate_inclusion_proof", "src/tree_db/rocksdb.rs::get_node", "src/tree_db/rocksdb.rs::insert", "src/tree_db/rocksdb.rs::batch_write", "src/tree/tree_node.rs::encode", "src/tree/tree_node.rs::decode"]}
{"id": "C77", "title": "Roots commit to their contents with every integrated hasher", "statement": "Whichever of the hashers listed in the README is chosen, inserting a pair into a separate (empty) tree does not change what an older root holds, and a proof for a pair verifies for no other value of that key.", "quantifier": "every history, root in use, key and value; for FxHash every value of at least 16 bytes is a counterexample, for SeaHash every value of at least 48 bytes", "why_tests_cant": "a test uses a few values; colliding values exist for all of them but are not met by chance", "anchors": ["src/tree_hasher/fx.rs::update", "src/tree_hasher/fx.rs::finalize", "src/tree_hasher/seahasher.rs::update", "src/tree_hasher/seahasher.rs::finalize", "src/merkle_bit.rs::insert_one", "src/merkle_bit.rs::get_one", "src/merkle_bit.rs::verify_inclusion_proof"]}
{"id": "C78", "title": "Lost nodes are not mistaken for absent keys", "statement": "If nodes of a database were lost (removed through another root, removed twice, or by the storage), get_one, get and generate_inclusion_proof of a key that a root holds return the value, or the proof, or an error; they do not report the key as absent.", "quantifier": "every database left by any sequence of calls, removals of anything at any time, failures, restarts and losses of nodes; every root that was in use in any database, every key", "why_tests_cant": "all histories and all sets of lost nodes", "anchors": ["src/merkle_bit.rs::get_one", "src/merkle_bit.rs::get", "src/merkle_bit.rs::generate_inclusion_proof", "src/merkle_bit.rs::push_cell_if_node"]}
{"id": "C79", "title": "Two databases never disagree about a root", "statement": "Two databases, each after any history of its own, on any backends and with any depth limits: if get_one of the same root and key returns a value on both, the values are equal; if a proof is generated on both, the proofs are equal; if the same batch is inserted at the same root on both, the new roots are equal. In particular a database that has lost nodes either gives the answer of an intact one or none.", "quantifier": "every pair of databases left by any sequences of calls, removals of anything, failures, restarts and losses of nodes; any location as root, any batch", "why_tests_cant": "all pairs of histories", "anchors": ["src/merkle_bit.rs::get_one", "src/merkle_bit.rs::generate_inclusion_proof", "src/merkle_bit.rs::insert", "src/merkle_bit.rs::traverse_tree", "src/merkle_bit.rs::create_tree"]}
{"id": "C80", "title": "Altered nodes are noticed", "statement": "If nodes of the database are replaced by others, reads of a root in use return the right value or an error.", "quantifier": "every history, root in use, key and alteration", "why_tests_cant": "all alterations", "anchors": ["src/merkle_bit.rs::get_one", "src/merkle_bit.rs::get", "src/merkle_bit.rs::generate_inclusion_proof", "src/merkle_bit.rs::verify_inclusion_proof", "src/utils/tree_utils.rs::check_descendants"]}
{"id": "C81", "title": "The work of a call is bounded by its arguments", "statement": "Whatever the database contains: an insertion of m keys under depth limit D makes at most 1 + 2m(D+3) reads, 3m(D+3) writes and m(D+5) hash computations, commits at most 8N times and deletes nothing; get, get_one and proof generation write nothing and make at most 1 + 2m(D+2), D+1 and D+1 reads; verifying a proof touches no database and hashes at most once per entry; removing a root makes at most 1 + 2f reads and as many writes and deletions together, where f is the number of nodes that disappear from the database.", "quantifier": "every database content including corrupt and cyclic ones, every hash function, argument and outcome; removal: every database without queued writes", "why_tests_cant": "all database contents and requests; a quadratic or exponential case shows only on particular ones", "anchors": ["src/merkle_bit.rs::insert", "src/merkle_bit.rs::traverse_tree", "src/merkle_bit.rs::create_tree", "src/merkle_bit.rs::get", "src/merkle_bit.rs::get_one", "src/merkle_bit.rs::generate_inclusion_proof", "src/merkle_bit.rs::verify_inclusion_proof", "src/merkle_bit.rs::remove"]}
{"id": "C82", "title": "Roots and proofs can be recomputed from the contents alone", "statement": "The root of a tree with given contents is h('l' ++ key ++ h('d' ++ key ++ value)) for one pair, and for several pairs h('b' ++ zero ++ one), where zero and one are the roots of the pairs whose keys have a zero and a one at the first bit where the keys are not all equal; h is the configured hash function. The proof of a key consists of the data hash, the leaf hash and, from the leaf up, the roots of the other sides. Another program with the same hash function can therefore compute roots and proofs without this crate.", "quantifier": "every history, root in use, contents, key and value; every hash function on the list of pieces; that the pieces may be concatenated: every list of pieces, for each modelled hasher", "why_tests_cant": "all contents and all histories", "anchors": ["src/merkle_bit.rs::insert", "src/merkle_bit.rs::create_tree", "src/merkle_bit.rs::insert_leaf", "src/merkle_bit.rs::generate_inclusion_proof", "src/tree_hasher/default.rs::update", "src/tree_hasher/keccak.rs::update", "src/tree_hasher/sha3_openssl.rs::update", "src/tree_hasher/sha256.rs::update", "src/tree_hasher/seahasher.rs::update", "src/tree_hasher/fx.rs::update"]}
{"id": "C83", "title": "A read of several keys depends on the contents only", "statement": "get of any list of keys gives the same map or the same error on any two trees with the same contents, whatever calls built them, on whatever backend, with whatever hash function and value format, and in whatever order the keys are asked for; which keys are found and when the depth limit is exceeded is a function of the keys of the tree, the keys asked for and the limit.", "quantifier": "every pair of histories with the same contents, every request including those C05 excludes, every limit", "why_tests_cant": "all contents, requests and histories; the requests that behave oddly are rare", "anchors": ["src/merkle_bit.rs::get", "src/utils/tree_utils.rs::split_pairs", "src/utils/tree_utils.rs::check_descendants", "src/utils/tree_utils.rs::generate_leaf_map"]}
{"id": "C84", "title": "The result of an insertion depends on the contents only", "statement": "insert of the same pairs, in any order, gives the same root or the same error on any two trees with the same contents, whatever calls built them and on whatever backend; the root, and when the call fails with which error, is a function of the contents, the pairs and the limit.", "quantifier": "every pair of histories with the same contents, every batch including those C03 excludes whose values can be encoded, every limit", "why_tests_cant": "all contents, batches and histories", "anchors": ["src/merkle_bit.rs::insert", "src/merkle_bit.rs::traverse_tree", "src/merkle_bit.rs::create_tree", "src/utils/tree_utils.rs::split_pairs", "src/utils/tree_utils.rs::check_descendants"]}
{"id": "C85", "title": "A value read for a key was once written for that key", "statement": "Whatever was done to a database before: any calls with any arguments, removals of any location, calls cut short, failing database operations, restarts, lost nodes: if get or get_one at any location returns a value for a key, or a proof for a key and value verifies against a location of the database, then that key and value were given together to an insertion into this database.", "quantifier": "every such history, every location, key, request, limit and proof; hash inputs without collisions", "why_tests_cant": "all histories with faults at every point, all locations and all proofs", "anchors": ["src/merkle_bit.rs::get", "src/merkle_bit.rs::get_one", "src/merkle_bit.rs::verify_inclusion_proof", "src/merkle_bit.rs::insert", "src/merkle_bit.rs::insert_one", "src/merkle_bit.rs::remove"]}
{"id": "C86", "title": "Two implementations of one hash function can be exchanged", "statement": "A database written by a build with one of the features sha2 and rust_sha2, sha3 and rust_sha3, keccak and rust_keccak, blake2-rfc and blake2b can be used by a build with the other: every call on every database returns the same result and leaves the same database. Reads and removals do not depend on the hasher at all.", "quantifier": "every key length, backend, database content, call and argument", "why_tests_cant": "all inputs of the hash functions, all databases and calls; tests are compiled with one feature at a time", "anchors": ["src/tree_hasher/mod.rs::TreeHasher", "src/traits.rs::finalize", "src/tree_hasher/keccak.rs::finalize", "src/tree_hasher/sha3_openssl.rs::finalize", "src/tree_hasher/sha256.rs::finalize", "src/tree_hasher/blake2b_rfc.rs::new"]}
{"id": "C87", "title": "The ways to read one key agree in every database", "statement": "Whatever the database contains, nodes of this crate or not: if get_one returns a value for a key at a location, get of that key alone returns the same value; what get of one key returns, get_one returns too (it needs a limit greater by one); if get_one returns a value, a proof can be generated, if it returns nothing, generating a proof fails with an error, and other failures are the same.", "quantifier": "every database state of every backend, location, key and limit; for proofs, every decoder that does not panic", "why_tests_cant": "all contents of the database, also corrupt ones", "anchors": ["src/merkle_bit.rs::get", "src/merkle_bit.rs::get_one", "src/merkle_bit.rs::generate_inclusion_proof"]}
{"id": "C88", "title": "Trees built from scratch do not depend on the database", "statement": "insert without a previous root gives the same root or the same error and hashes the same strings on every database, whatever it contains and on whatever backend; if the batch is well-formed it succeeds, and afterwards exactly the pairs of the batch are read, proved and verified at the root, even if the database was corrupt.", "quantifier": "every database state of both backends, every batch and limit; hash inputs of this call without collisions", "why_tests_cant": "all contents of the database, also corrupt ones, and all batches", "anchors": ["src/merkle_bit.rs::insert", "src/merkle_bit.rs::create_tree", "src/merkle_bit.rs::get", "src/merkle_bit.rs::get_one", "src/merkle_bit.rs::generate_inclusion_proof"]}
{"id": "C89", "title": "A tree can be copied into another database", "statement": "If the nodes below a root in use are copied into any other database, of any backend, whatever else that contains and with whatever reference counts, the tree can be used there: reads and proofs are those of the home database, insertions succeed on it, give the root the home database gives for the same contents, and leave all trees known there usable, also if more trees are copied in or other nodes are changed meanwhile.", "quantifier": "every history of the home databases, every state of the other database, every sequence of copies, insertions as in C03 and changes of other nodes; hash inputs without collisions", "why_tests_cant": "all histories, all contents of the other database", "anchors": ["src/merkle_bit.rs::insert", "src/merkle_bit.rs::traverse_tree", "src/merkle_bit.rs::get", "src/merkle_bit.rs::get_one", "src/merkle_bit.rs::generate_inclusion_proof", "src/traits.rs::insert", "src/traits.rs::get_node"]}
{"id": "C90", "title": "Results do not depend on the release of Rust", "statement": "The crate uses partition_point and binary_search of the standard library, which are specified for partitioned and sorted slices only and whose implementation changed in Rust 1.82. Programs compiled with different releases return the same result for the same insert or get on the same database, hash the same strings and leave the same database.", "quantifier": "every history (as in C42 and C03), backend, batch, request and limit; every implementation of the two functions that is as documented; hash inputs without collisions", "why_tests_cant": "all implementations, all batches and trees; tests run with the release they were compiled with", "anchors": ["src/merkle_bit.rs::insert", "src/merkle_bit.rs::get", "src/merkle_bit.rs::traverse_tree", "src/utils/tree_utils.rs::split_pairs", "src/utils/tree_utils.rs::check_descendants"]}
{"id": "C91", "title": "Only a split index out of range can make a call panic", "statement": "Whatever nodes others have written into the database, cyclic, forged or of the wrong kind, insert, insert_one, get, get_one, generate_inclusion_proof and verify_inclusion_proof return Ok or Err, for every hash function, as long as no branch has a split index above the number of bits of a key (in a build with overflow checks, also no counter of theirs near its maximum, see C74); and if a stored branch has one, some request for two keys panics.", "quantifier": "every sequence of calls, removals, failures, crashes, restarts, losses and foreign nodes in range; every call and argument; every hash function, also with collisions", "why_tests_cant": "all contents of the database and all arguments", "anchors": ["src/merkle_bit.rs::insert", "src/merkle_bit.rs::get", "src/merkle_bit.rs::get_one", "src/merkle_bit.rs::generate_inclusion_proof", "src/merkle_bit.rs::merge_nodes", "src/utils/tree_utils.rs::check_descendants"]}
