(** * The crate with machine integers

    Model.v uses unbounded numbers.  Here the same functions are transcribed
    once more with the fixed-width integers of the code, in both ways in which
    the code can be compiled: with overflow checks (the default of debug
    builds: an overflow panics) and without (the default of release builds: it
    wraps around).  Only the functions that do arithmetic are repeated; the
    others ([choose_zero], [split_pairs], the sorting and searching functions of
    the standard library, [remove], whose subtraction saturates, and
    [verify_inclusion_proof]) are those of Model.v.  No proofs here. *)
From Coq Require Import Strings.Byte NArith.
From stdpp Require Import prelude countable gmap sorting strings.
From Verif Require Import Model Spec Struct.

Local Open Scope nat_scope.

(** A build of the crate: the number of bits of the reference and node counters
    ([u64]: src/traits.rs:49,51,57,59, src/utils/tree_ref.rs:14), of
    [TreeRef::count] ([u32]: tree_ref.rs:17) and of [usize]; whether overflows
    wrap; and the number of elements [VecDeque::with_capacity] makes room for
    (it depends on the version of the standard library: some round up to a power
    of two). *)
Record build : Type := Bld {
  wref : N;
  wcnt : N;
  wptr : N;
  wraps : bool;
  deque_cap : nat → nat;
}.
(** A number fits in [w] bits. *)
Definition fits (w : N) (a : nat) : Prop := (N.of_nat a < 2 ^ w)%N.
Definition fitsb (w : N) (a : nat) : bool := (N.of_nat a <? 2 ^ w)%N.

(** [a + b], [a * b], [a - b], [a << b] on [w]-bit numbers.  A shift only drops
    bits, in both kinds of builds. *)
Definition m_wrap (M : build) (w : N) (a : nat) : res nat :=
  if fitsb w a then Ok a
  else if wraps M then Ok (N.to_nat (N.of_nat a mod 2 ^ w)%N) else Pan.
Definition m_add (M : build) (w : N) (a b : nat) : res nat := m_wrap M w (a + b).
Definition m_mul (M : build) (w : N) (a b : nat) : res nat := m_wrap M w (a * b).
Definition m_sub (M : build) (w : N) (a b : nat) : res nat :=
  if b <=? a then Ok (a - b)
  else if wraps M then Ok (N.to_nat (2 ^ w + N.of_nat a - N.of_nat b)%N) else Pan.
Definition m_shl (w : N) (a b : nat) : nat := N.to_nat (N.of_nat (a * 2 ^ b) mod 2 ^ w)%N.

(** ** Bit utilities (src/utils/tree_utils.rs) *)
Section Utils.
  Context (M : build).

  (** [(i << 3) + 7 - usize::try_from(fast_log_2(xor))?] (tree_utils.rs:95 and 149). *)
  Definition m_split_bit (i : nat) (a b : byte) : res nat :=
    s ← m_add M (wptr M) (m_shl (wptr M) i 3) 7;
    m_sub M (wptr M) s (fast_log_2 (xor_byte a b)).
  (** [(j * 8) + 7 - usize::try_from(fast_log_2(xor))?] (tree_utils.rs:208). *)
  Definition m_split_bit_mul (j : nat) (a b : byte) : res nat :=
    p ← m_mul M (wptr M) j 8;
    s ← m_add M (wptr M) p 7;
    m_sub M (wptr M) s (fast_log_2 (xor_byte a b)).

  (** [calc_min_split_index] (tree_utils.rs:122-153). *)
  Fixpoint m_first_diff (i : nat) (a b : bytes) : res (option nat) :=
    match a, b with
    | x :: a', y :: b' =>
        if decide (x = y) then m_first_diff (S i) a' b'
        else s ← m_split_bit i x y; Ok (Some s)
    | _, _ => Ok None
    end.
  Definition m_calc_min_split_index {n} (keys : list (arr n)) (branch_key : arr n) : res nat :=
    match head keys, last keys with
    | Some min_key, Some max_key =>
        let '(min_key, max_key) :=
          if arr_ltb branch_key min_key then (branch_key, max_key)
          else if arr_ltb max_key branch_key then (min_key, branch_key)
          else (min_key, max_key) in
        bits ← m_mul M (wptr M) n 8;
        last_bit ← m_sub M (wptr M) bits 1;
        o ← m_first_diff 0 min_key max_key;
        Ok (default last_bit o)
    | _, _ => Err "Failed to get min key from list of keys."
    end.

  (** [check_descendants] (tree_utils.rs:77-115). *)
  Fixpoint m_is_descendant (js : list nat) (branch_split_index : nat) (branch_key key : bytes) : res bool :=
    match js with
    | [] => Ok true
    | j :: js' =>
        let byte := j / 8 in
        b ← index branch_key byte;
        k ← index key byte;
        if decide (b = k) then m_is_descendant js' branch_split_index branch_key key
        else
          s ← m_split_bit byte b k;
          if s <? branch_split_index then Ok false
          else m_is_descendant js' branch_split_index branch_key key
    end.
  Fixpoint m_descendant_range {n} (js : list nat) (bsi : nat) (bk : arr n) (len : nat)
      (keys : list (arr n)) (i start : nat) (found : bool) : res (nat * nat) :=
    match keys with
    | [] => Ok (start, 0)
    | k :: keys' =>
        d ← m_is_descendant js bsi bk k;
        let '(start, found) :=
          if d && negb found then (i, true) else (start, found) in
        if negb d && found then Ok (start, i)
        else
          lst ← (if d : bool then l ← m_sub M (wptr M) len 1; Ok ((i =? l) && found) else Ok false);
          if lst : bool then e ← m_add M (wptr M) i 1; Ok (start, e)
          else m_descendant_range js bsi bk len keys' (i + 1) start found
    end.
  Definition m_check_descendants {n} (keys : list (arr n)) (branch_split_index : nat)
      (branch_key : arr n) (min_split_index : nat) : res (list (arr n)) :=
    r ← m_descendant_range (step8 min_split_index branch_split_index) branch_split_index
          branch_key (length keys) keys 0 0 false;
    slice keys r.1 r.2.

  (** [generate_tree_ref_queue] (tree_utils.rs:184-222). *)
  Fixpoint m_adjacent_split (j : nat) (l r : bytes) : res (option nat) :=
    match l, r with
    | x :: l', y :: r' =>
        if decide (x = y) then
          match l' with
          | [] => Err "Attempted to insert item with duplicate keys"
          | _ => m_adjacent_split (S j) l' r'
          end
        else s ← m_split_bit_mul j x y; Ok (Some s)
    | _, _ => Ok None
    end.
  Fixpoint m_generate_items {n} (i : nat) (rs : list (tref n)) : res (list (nat * nat * nat)) :=
    match rs with
    | r1 :: ((r2 :: _) as rs') =>
        i1 ← m_add M (wptr M) i 1;
        s ← m_adjacent_split 0 (tkey r1) (tkey r2);
        rest ← m_generate_items (S i) rs';
        Ok (match s with Some s => (s, i, i1) :: rest | None => rest end)
    | _ => Ok []
    end.
End Utils.

(** ** The tree (src/merkle_bit.rs) *)
Section Tree.
  Context (M : build) {n : nat} {V : Type}.
  Context (encode : V → res bytes) (decode : bytes → res V).
  Context (max_depth : nat).
  Notation key := (arr n).
  Notation loc := (arr n).

  (** The new count of a node that may be stored already (merkle_bit.rs:450-458). *)
  Definition m_bump (o : option (node n)) : res nat :=
    match o with Some nd => m_add M (wref M) (refs nd) 1 | None => Ok 1 end.
  (** [insert_leaves] (merkle_bit.rs:415-466). *)
  Definition m_insert_leaves_one (values : gmap key V) (k : key) : prog n loc :=
    match values !! k with
    | None => Panic
    | Some v =>
        e ← lift (encode v);
        dloc ← hash (data_in k e);
        lloc ← hash (leaf_in k dloc);
        od ← get_node dloc;
        rd ← lift (m_bump od);
        ol ← get_node lloc;
        rl ← lift (m_bump ol);
        db_insert dloc (Node rd (VData e)) ;;
        db_insert lloc (Node rl (VLeaf k dloc)) ;;
        mret lloc
    end.
  Fixpoint m_insert_leaves (values : gmap key V) (keys : list key) : prog n (list loc) :=
    match keys with
    | [] => mret []
    | k :: keys' =>
        l ← m_insert_leaves_one values k;
        ls ← m_insert_leaves values keys';
        mret (l :: ls)
    end.

  (** [insert_leaf] (merkle_bit.rs:351-361). *)
  Definition m_insert_leaf (l : loc) : prog n unit :=
    o ← get_node l;
    match o with
    | Some nd =>
        rf ← lift (m_add M (wref M) (refs nd) 1);
        db_insert l (Node rf (var nd))
    | None => Throw "Corrupt merkle tree: Failed to update leaf references"
    end.

  (** [split_nodes] (merkle_bit.rs:367-411); the sum comes before the [match] on
      the variant (line 377). *)
  Definition m_split_nodes (depth : nat) (b : loc) (node_list : list key) : prog n (tref n + cell) :=
    o ← get_node b;
    match o with
    | None => Throw "Failed to find node in database."
    | Some nd =>
        match node_list with
        | [] =>
            rf ← lift (m_add M (wref M) (refs nd) 1);
            match var nd with
            | VBranch count zero one si bk =>
                db_insert b (Node rf (VBranch count zero one si bk)) ;;
                mret (inl (TRef bk b count 1))
            | VLeaf lk ld =>
                db_insert b (Node rf (VLeaf lk ld)) ;;
                mret (inl (TRef lk b 1 1))
            | VData _ => Throw "Corrupt merkle tree: Found data node while traversing tree"
            end
        | _ =>
            d ← lift (m_add M (wptr M) depth 1);
            mret (inr (Cell b node_list nd d))
        end
    end.

  (** [traverse_tree] (merkle_bit.rs:252-348). *)
  Fixpoint m_traverse_tree (fuel : nat) (key_map : gmap key loc)
      (acc : list (tref n)) (queue : list cell) : prog n (list (tref n)) :=
    match queue with
    | [] => mret acc
    | c :: q =>
        match fuel with
        | 0 => Fuel
        | S fuel' =>
            if max_depth <? cdepth c then Throw "Depth of merkle tree exceeded"
            else
              match var (cnode c) with
              | VData _ => Throw "Corrupt merkle tree: Found data node while traversing tree"
              | VLeaf lk _ =>
                  match key_map !! lk with
                  | Some l =>
                      if decide (l = cloc c)
                      then m_insert_leaf (cloc c) ;; m_traverse_tree fuel' key_map acc q
                      else m_traverse_tree fuel' key_map acc q
                  | None =>
                      m_insert_leaf (cloc c) ;;
                      m_traverse_tree fuel' key_map (acc ++ [TRef lk (cloc c) 1 1]) q
                  end
              | VBranch count zero one si bk =>
                  m ← lift (m_calc_min_split_index M (ckeys c) bk);
                  descendants ←
                    (if m <? si
                     then lift (m_check_descendants M (ckeys c) si bk m)
                     else mret (ckeys c));
                  if (m <? si) && (length descendants =? 0) then
                    rf ← lift (m_add M (wref M) (refs (cnode c)) 1);
                    db_insert (cloc c) (Node rf (VBranch count zero one si bk)) ;;
                    m_traverse_tree fuel' key_map (acc ++ [TRef bk (cloc c) count 1]) q
                  else
                    zo ← lift (split_pairs descendants si);
                    r1 ← m_split_nodes (cdepth c) one zo.2;
                    let '(acc, q) := push_split r1 acc q in
                    r0 ← m_split_nodes (cdepth c) zero zo.1;
                    let '(acc, q) := push_split r0 acc q in
                    m_traverse_tree fuel' key_map acc q
              end
        end
    end.
  (** [generate_treerefs] (merkle_bit.rs:227-249). *)
  Definition m_generate_treerefs (root : loc) (keys : list key) (key_map : gmap key loc)
      : prog n (list (tref n)) :=
    o ← get_node root;
    match o with
    | None => Throw "Could not find root"
    | Some nd => m_traverse_tree (traverse_fuel max_depth keys) key_map [] [Cell root keys nd 0]
    end.

  (** The lookahead loop of [merge_nodes] (merkle_bit.rs:537-553);
      [usize::try_from(count_)?] fails if a [u32] does not fit. *)
  Definition m_usize (c : nat) : res nat :=
    if fitsb (wptr M) c then Ok c else Err "out of range integral type conversion attempted".
  Fixpoint m_lookahead (fuel : nat) (rs : list (tref n)) (p count_ : nat) : res (nat * nat) :=
    c ← m_usize count_;
    ptr ← m_add M (wptr M) p c;
    r ← index rs ptr;
    if count_ <? tcount r then
      match fuel with
      | 0 => Err "fuel"
      | S fuel' => m_lookahead fuel' rs p (tcount r)
      end
    else Ok (ptr, tcount r).

  (** One iteration of [merge_nodes] (merkle_bit.rs:530-588).  The sum of the two
      [count]s is computed after the new branch was stored (lines 582-583). *)
  Definition m_merge_one (rs : list (tref n)) (item : nat * nat * nat) : prog n (list (tref n) * loc) :=
    let '(split_index, p, next) := item in
    rp ← lift (index rs p);
    rn ← lift (index rs next);
    la ← lift (if 1 <? tcount rn then m_lookahead (length rs) rs p (tcount rn)
               else Ok (next, tcount rn));
    rl ← lift (index rs la.1);
    count ← lift (m_add M (wref M) (tnodes rp) (tnodes rl));
    bloc ← hash (branch_in (tloc rp) (tloc rl));
    db_insert bloc (Node 1 (VBranch count (tloc rp) (tloc rl) split_index (tkey rp))) ;;
    c ← lift (m_add M (wcnt M) la.2 (tcount rp));
    let new := TRef (tkey rp) bloc count c in
    mret (<[p := new]> (<[la.1 := new]> rs), bloc).
  Fixpoint m_merge_level (rs : list (tref n)) (root : loc) (level : list (nat * nat * nat))
      : prog n (list (tref n) * loc) :=
    match level with
    | [] => mret (rs, root)
    | it :: level' =>
        r ← m_merge_one rs it;
        m_merge_level r.1 r.2 level'
    end.
  Definition m_merge_nodes (rs : list (tref n)) (level : list (nat * nat * nat))
      : prog n (list (tref n) * loc) :=
    r ← m_merge_level rs (mkarr n []) level;
    batch_write ;;
    mret r.
  (** [create_tree] (merkle_bit.rs:473-501). *)
  Fixpoint m_merge_all (rs : list (tref n)) (root : option loc) (levels : list (list (nat * nat * nat)))
      : prog n (option loc) :=
    match levels with
    | [] => mret root
    | level :: levels' =>
        r ← m_merge_nodes rs level;
        m_merge_all r.1 (Some r.2) levels'
    end.
  Definition m_create_tree (rs : list (tref n)) : prog n loc :=
    match rs with
    | [] => Throw "tree_refs should not be empty!"
    | [r] => batch_write ;; mret (tloc r)
    | _ =>
        let rs := sort_refs rs in
        items ← lift (m_generate_items M 0 rs);
        o ← m_merge_all rs None (levels_of items);
        match o with
        | Some root => mret root
        | None => Throw "Failed to get root."
        end
    end.

  (** [insert] (merkle_bit.rs:184-222) and [insert_one] (merkle_bit.rs:879-904). *)
  Definition m_insert_sorted (previous_root : option loc) (keys : list key) (value_map : gmap key V)
      : prog n loc :=
    nodes ← m_insert_leaves value_map keys;
    let tree_refs := zip_with (λ l k, TRef k l 1 1) nodes keys in
    let key_map := key_map_of keys nodes in
    proof_nodes ←
      (match previous_root with
       | Some root => m_generate_treerefs root keys key_map
       | None => mret []
       end);
    m_create_tree (tree_refs ++ proof_nodes).
  Definition m_insert (previous_root : option loc) (keys : list key) (values : list V) : prog n loc :=
    if negb (length keys =? length values) then Throw "Keys and values have different lengths"
    else if (length keys =? 0) || (length values =? 0) then Throw "Keys or values are empty"
    else m_insert_sorted previous_root (sort_keys keys) (value_map_of keys values).
  Definition m_insert_one (previous_root : option loc) (k : key) (v : V) : prog n loc :=
    m_insert_sorted previous_root [k] {[ k := v ]}.

  (** [push_cell_if_node] (merkle_bit.rs:159-178) and [get] (77-156). *)
  Definition m_push_cell_if_node (queue : list cell) (depth : nat) (l : loc) (keys : list key)
      : prog n (list cell) :=
    o ← get_node l;
    match o with
    | Some nd =>
        match keys with
        | [] => mret queue
        | _ =>
            d ← lift (m_add M (wptr M) depth 1);
            mret (Cell l keys nd d :: queue)
        end
    | None => mret queue
    end.
  Fixpoint m_get_loop (fuel : nat) (keys : list key) (leaf_map : gmap key (option V))
      (queue : list cell) : prog n (gmap key (option V)) :=
    match queue with
    | [] => mret leaf_map
    | c :: q =>
        match fuel with
        | 0 => Fuel
        | S fuel' =>
            if max_depth <? cdepth c then Throw "Depth of merkle tree exceeded"
            else
              match var (cnode c) with
              | VBranch _ zero one si bk =>
                  m ← lift (m_calc_min_split_index M (ckeys c) bk);
                  descendants ← lift (m_check_descendants M (ckeys c) si bk m);
                  match descendants with
                  | [] => m_get_loop fuel' keys leaf_map q
                  | _ =>
                      zo ← lift (split_pairs descendants si);
                      q ← m_push_cell_if_node q (cdepth c) one zo.2;
                      q ← m_push_cell_if_node q (cdepth c) zero zo.1;
                      m_get_loop fuel' keys leaf_map q
                  end
              | VLeaf lk ld =>
                  o ← get_node ld;
                  match o with
                  | Some nd =>
                      match var nd with
                      | VData e =>
                          v ← lift (decode e);
                          match binary_search keys lk with
                          | Some i =>
                              k ← lift (index keys i);
                              m_get_loop fuel' keys (<[k := Some v]> leaf_map) q
                          | None => m_get_loop fuel' keys leaf_map q
                          end
                      | _ => Throw "Corrupt merkle tree: Found non data node after leaf"
                      end
                  | None => Throw "Corrupt merkle tree: Failed to get leaf node from DB"
                  end
              | VData _ => Throw "Corrupt merkle tree: Found data node while traversing tree"
              end
        end
    end.
  Definition m_get (root : loc) (keys : list key) : prog n (gmap key (option V)) :=
    match keys with
    | [] => mret ∅
    | _ =>
        let leaf_map := generate_leaf_map keys in
        let keys := sort_keys keys in
        o ← get_node root;
        match o with
        | None => mret leaf_map
        | Some nd => m_get_loop (traverse_fuel max_depth keys) keys leaf_map [Cell root keys nd 0]
        end
    end.

  (** [get_one] (merkle_bit.rs:809-873); [depth += 1] comes before the read
      (line 824). *)
  Fixpoint m_get_one_loop (fuel : nat) (k : key) (d : nat) (found_leaf : bool) (l : loc)
      : prog n (option V) :=
    match fuel with
    | 0 => Fuel
    | S fuel' =>
        if max_depth <? d then Throw "Depth limit exceeded"
        else
          d1 ← lift (m_add M (wptr M) d 1);
          o ← get_node l;
          match o with
          | None => mret None
          | Some nd =>
              match var nd with
              | VBranch _ zero one si bk =>
                  if found_leaf : bool then Throw "Corrupt Merkle Tree"
                  else
                    m ← lift (m_calc_min_split_index M [k] bk);
                    descendants ← lift (m_check_descendants M [k] si bk m);
                    match descendants with
                    | [] => mret None
                    | _ =>
                        z ← lift (choose_zero k si);
                        m_get_one_loop fuel' k d1 found_leaf (if z : bool then zero else one)
                    end
              | VLeaf lk ld =>
                  if found_leaf : bool then Throw "Corrupt Merkle Tree"
                  else if decide (lk = k) then m_get_one_loop fuel' k d1 true ld
                  else mret None
              | VData e =>
                  if negb found_leaf then Throw "Corrupt Merkle Tree"
                  else
                    v ← lift (decode e);
                    mret (Some v)
              end
          end
    end.
  Definition m_get_one (root : loc) (k : key) : prog n (option V) :=
    m_get_one_loop (max_depth + 2) k 0 false root.

  (** [generate_inclusion_proof] (merkle_bit.rs:663-744).  It begins by making
      room for [max_depth] locations in a [VecDeque] and [max_depth] pairs of a
      location and a [bool] in a [Vec] (lines 668 and 671); both panic with
      "capacity overflow" if that takes more than [isize::MAX] bytes.  Running
      out of memory is not modelled. *)
  Definition m_with_capacity (elements size : nat) : res unit :=
    if (N.of_nat elements * N.of_nat size <? 2 ^ (wptr M - 1))%N then Ok tt else Pan.
  Fixpoint m_gen_proof_loop (fuel : nat) (k : key) (d : nat) (found_leaf : bool)
      (acc : list (loc * bool)) (l : loc) : prog n (list (loc * bool)) :=
    match fuel with
    | 0 => Fuel
    | S fuel' =>
        if max_depth <? d then Throw "Depth limit exceeded"
        else
          d1 ← lift (m_add M (wptr M) d 1);
          o ← get_node l;
          match o with
          | None => Throw "Failed to find node"
          | Some nd =>
              match var nd with
              | VBranch _ zero one si bk =>
                  if found_leaf : bool then Throw "Corrupt Merkle Tree"
                  else
                    m ← lift (m_calc_min_split_index M [k] bk);
                    descendants ← lift (m_check_descendants M [k] si bk m);
                    match descendants with
                    | [] => Throw "Key not found in tree"
                    | _ =>
                        z ← lift (choose_zero k si);
                        if z : bool
                        then m_gen_proof_loop fuel' k d1 found_leaf (acc ++ [(one, true)]) zero
                        else m_gen_proof_loop fuel' k d1 found_leaf (acc ++ [(zero, false)]) one
                    end
              | VLeaf lk ld =>
                  if found_leaf : bool then Throw "Corrupt Merkle Tree"
                  else if decide (lk = k) then
                    lloc ← hash (leaf_in lk ld);
                    m_gen_proof_loop fuel' k d1 true (acc ++ [(lloc, false)]) ld
                  else Throw "Key not found in tree"
              | VData e =>
                  if negb found_leaf then Throw "Corrupt Merkle Tree"
                  else
                    dloc ← hash (data_in k e);
                    mret (reverse (acc ++ [(dloc, false)]))
              end
          end
    end.
  Definition m_generate_inclusion_proof (root : loc) (k : key) : prog n (list (loc * bool)) :=
    lift (m_with_capacity (deque_cap M max_depth) n) ;;
    lift (m_with_capacity max_depth (n + 1)) ;;
    m_gen_proof_loop (max_depth + 2) k 0 false [] root.
End Tree.

(** The program of a call, as [exec] of Spec.v. *)
Definition m_exec (M : build) {n V} (enc : V → res bytes) (dec : bytes → res V) (c : call n V) : prog n unit :=
  match c with
  | CInsert D prev ks vs => m_insert M enc D prev ks vs ;; mret tt
  | CInsertOne D prev k v => m_insert_one M enc D prev k v ;; mret tt
  | CGet D root ks => m_get M dec D root ks ;; mret tt
  | CGetOne D root k => m_get_one M dec D root k ;; mret tt
  | CProve D root k => m_generate_inclusion_proof M D root k ;; mret tt
  | CVerify root k v proof => verify_inclusion_proof enc root k v proof
  end.

(** ** Use of a database
    [used st lg K W]: the state [st] is reached from a new database by any calls,
    with any arguments and results, complete or cut short at any point, removals
    of any locations, failures of the database at any point and restarts; [lg]
    are the strings hashed, [K] is the number of keys passed to insertions and
    [W] the number of nodes written. *)
Definition keys_of {n V} (c : call n V) : nat :=
  match c with CInsert _ _ ks _ => length ks | CInsertOne _ _ _ _ => 1 | _ => 0 end.
Section Used.
  Context {n : nat} (B : backend n) (H : list bytes → arr n).
  Context {V : Type} (enc : V → res bytes) (dec : bytes → res V).
  Inductive used : b_st B → list (list bytes) → nat → nat → Prop :=
  | used_init : used (b_init B) [] 0 0
  | used_call st lg K W c st' :
      used st lg K W → st' ∈ states B H (exec enc dec c) st →
      used st' (lg ++ hlog B H (exec enc dec c) st) (K + keys_of c) (W + writes B H (exec enc dec c) st)
  | used_remove st lg K W r st' :
      used st lg K W → st' ∈ states B H (remove_prog B st r) st →
      used st' lg K (W + writes B H (remove_prog B st r) st)
  | used_restart st lg K W : used st lg K W → used (b_drop B st) lg K W.

  (** The same execution: result, final state, strings hashed, all states on the
      way, all reads of the database, and what happens if an operation fails. *)
  Definition alike {A} (p' p : prog n A) (st : b_st B) : Prop :=
    run B H p' st = run B H p st ∧ states B H p' st = states B H p st ∧
    fetches B H p' st = fetches B H p st ∧ ∀ i, run_fault B H i p' st = run_fault B H i p st.

  (** A sequence of operations: complete calls, calls during which the database
      operation number [i] fails, removals and restarts. *)
  Inductive op : Type := OpCall (c : call n V) | OpFault (c : call n V) (i : nat) | OpRemove (r : arr n) | OpRestart.
  (** The outcome of an operation and the state after it, if calls are executed by
      the programs [ex]. *)
  Definition op_step (ex : call n V → prog n unit) (st : b_st B) (o : op) : outcome unit * b_st B :=
    match o with
    | OpCall c => (out B H (ex c) st, fin B H (ex c) st)
    | OpFault c i => run_fault B H i (ex c) st
    | OpRemove r => (out B H (remove_prog B st r) st, fin B H (remove_prog B st r) st)
    | OpRestart => (ROk tt, b_drop B st)
    end.
  Fixpoint session (ex : call n V → prog n unit) (st : b_st B) (os : list op) : list (outcome unit * b_st B) :=
    match os with
    | [] => []
    | o :: os' => op_step ex st o :: session ex (op_step ex st o).2 os'
    end.
  (** The strings hashed, the keys inserted, the nodes written. *)
  Definition op_prog (st : b_st B) (o : op) : prog n unit :=
    match o with
    | OpCall c | OpFault c _ => exec enc dec c
    | OpRemove r => remove_prog B st r
    | OpRestart => mret tt
    end.
  Definition op_keys (o : op) : nat := match o with OpCall c | OpFault c _ => keys_of c | _ => 0 end.
  Fixpoint session_log (st : b_st B) (os : list op) : list (list bytes) :=
    match os with
    | [] => []
    | o :: os' => hlog B H (op_prog st o) st ++ session_log (op_step (exec enc dec) st o).2 os'
    end.
  Fixpoint session_writes (st : b_st B) (os : list op) : nat :=
    match os with
    | [] => 0
    | o :: os' => writes B H (op_prog st o) st + session_writes (op_step (exec enc dec) st o).2 os'
    end.
  Definition session_keys (os : list op) : nat := foldr (λ o a, op_keys o + a) 0 os.

  (** The arguments of a call fit in the machine's numbers; for a proof, so does
      the room it reserves. *)
  Definition call_fits (M : build) (c : call n V) : Prop :=
    match c with
    | CInsert D _ ks _ | CGet D _ ks => fits (wptr M) (D + 1) ∧ fits (wptr M) (length ks)
    | CInsertOne D _ _ _ | CGetOne D _ _ => fits (wptr M) (D + 1)
    | CProve D _ _ => fits (wptr M) (D + 1) ∧ fits (wptr M - 1) (deque_cap M D * n) ∧ fits (wptr M - 1) (D * (n + 1))
    | CVerify _ _ _ _ => True
    end.
  Definition op_fits (M : build) (o : op) : Prop :=
    match o with OpCall c | OpFault c _ => call_fits M c | _ => True end.
  (** Every call writes fewer nodes than [TreeRef::count] can count. *)
  Fixpoint session_fits (M : build) (st : b_st B) (os : list op) : Prop :=
    match os with
    | [] => True
    | o :: os' => op_fits M o ∧ fits (wcnt M) (writes B H (op_prog st o) st) ∧ fits (wptr M) (writes B H (op_prog st o) st) ∧
                  session_fits M (op_step (exec enc dec) st o).2 os'
    end.
End Used.
Arguments op : clear implicits.
Arguments OpCall {n V}. Arguments OpFault {n V}. Arguments OpRemove {n V}. Arguments OpRestart {n V}.
