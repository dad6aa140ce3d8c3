(** * Executable model of the crate [starling] (ChosunOne/merkle_bit).

    Every definition cites the file and lines of /repo it transcribes.
    No proofs here: this file only has to compute.  *)
From Coq Require Import Strings.Byte NArith.
From stdpp Require Import prelude countable gmap sorting strings.

Local Open Scope nat_scope.

(** ** Bytes and fixed-size arrays *)

Global Instance byte_eq_dec : EqDecision byte := Byte.byte_eq_dec.
Global Program Instance byte_countable : Countable byte :=
  inj_countable Byte.to_N Byte.of_N _.
Next Obligation. intros x. apply Byte.of_to_N. Qed.

Notation bytes := (list byte).

(** [Array<N>], i.e. [[u8; N]] (src/lib.rs:122 and 128).  Both keys and node
    locations have this type.  The length is part of the type, as in Rust. *)
Definition arr (n : nat) : Type := { l : bytes | length l = n }.
Definition arr_list {n} (a : arr n) : bytes := `a.
Coercion arr_list : arr >-> list.

Global Instance arr_eq_dec n : EqDecision (arr n).
Proof. unfold arr. apply _. Defined.
Global Instance arr_countable n : Countable (arr n).
Proof. unfold arr. apply _. Defined.

(** Build an array from a byte list: zero-padded or truncated.  Only used for
    literals and for the hash adaptors (src/tree_hasher/*.rs). *)
Definition mkarr (n : nat) (l : bytes) : arr n :=
  exist _ (resize n x00 l) (resize_length l n x00).

(** Derived [Ord] of [[u8; N]] (src/lib.rs:127, used by [sort_unstable],
    [binary_search] and [<]): lexicographic, bytes compared as numbers. *)
Fixpoint bytes_cmp (a b : bytes) : comparison :=
  match a, b with
  | [], [] => Eq
  | [], _ :: _ => Lt
  | _ :: _, [] => Gt
  | x :: a', y :: b' =>
      match N.compare (Byte.to_N x) (Byte.to_N y) with
      | Eq => bytes_cmp a' b'
      | c => c
      end
  end.

Definition arr_cmp {n} (a b : arr n) : comparison := bytes_cmp a b.
Definition arr_ltb {n} (a b : arr n) : bool :=
  match arr_cmp a b with Lt => true | _ => false end.
Definition arr_leb {n} (a b : arr n) : bool :=
  match arr_cmp a b with Gt => false | _ => true end.
Definition arr_le {n} (a b : arr n) : Prop := arr_leb a b = true.
Global Instance arr_le_dec n : RelDecision (@arr_le n).
Proof. intros a b. unfold arr_le. apply _. Defined.

(** ** Results of pure code
    [Result<T, Exception>] plus an explicit panic (slice index out of bounds).
    [Exception] carries a message (src/traits.rs:205-248). *)
Inductive res (A : Type) : Type :=
| Ok (a : A)
| Err (e : string)
| Pan.
Arguments Ok {A} a.
Arguments Err {A} e.
Arguments Pan {A}.

Global Instance res_ret : MRet res := λ A a, Ok a.
Global Instance res_bind : MBind res := λ A B f m,
  match m with Ok a => f a | Err e => Err e | Pan => Pan end.

(** Slice indexing [xs[i]]: panics out of bounds. *)
Definition index {A} (xs : list A) (i : nat) : res A :=
  match xs !! i with Some x => Ok x | None => Pan end.

(** ** Nodes
    [TreeNode]/[NodeVariant] (src/tree/tree_node.rs:17-24, src/traits.rs:132-139),
    [TreeBranch] (src/tree/tree_branch.rs:14-25), [TreeLeaf]
    (src/tree/tree_leaf.rs:14-19), [TreeData] (src/tree/tree_data.rs:14-17).
    Simplification: the [u64] counters and the [usize] index are [nat], i.e.
    arithmetic overflow at 2^64 is not modelled. *)
Inductive variant (n : nat) : Type :=
| VBranch (count : nat) (zero one : arr n) (split_index : nat) (key : arr n)
| VLeaf (key data : arr n)
| VData (value : bytes).
Arguments VBranch {n} count zero one split_index key.
Arguments VLeaf {n} key data.
Arguments VData {n} value.

Record node (n : nat) : Type := Node { refs : nat; var : variant n }.
Arguments Node {n} refs var.
Arguments refs {n} _.
Arguments var {n} _.

(** [TreeRef] (src/utils/tree_ref.rs:7-19). [u64]/[u32] counters are [nat]. *)
Record tref (n : nat) : Type := TRef {
  tkey : arr n;        (* key *)
  tloc : arr n;        (* location *)
  tnodes : nat;        (* node_count *)
  tcount : nat;        (* count *)
}.
Arguments TRef {n} tkey tloc tnodes tcount.
Arguments tkey {n} t.
Arguments tloc {n} t.
Arguments tnodes {n} t.
Arguments tcount {n} t.

(** [Ord for TreeRef] compares keys only (src/utils/tree_ref.rs:36-48). *)
Definition tref_le {n} (a b : tref n) : Prop := arr_le (tkey a) (tkey b).
Global Instance tref_le_dec n : RelDecision (@tref_le n).
Proof. intros a b. unfold tref_le. apply _. Defined.

(** [keys.sort_unstable()] and [tree_refs.sort()]: any sorting algorithm gives
    the same result on keys, and the sort of references is stable as is
    [merge_sort]. *)
Definition sort_keys {n} (ks : list (arr n)) : list (arr n) := merge_sort arr_le ks.
Definition sort_refs {n} (rs : list (tref n)) : list (tref n) := merge_sort tref_le rs.

(** ** Bit utilities (src/utils/tree_utils.rs) *)

(** [choose_zero] (tree_utils.rs:27-35). *)
Definition choose_zero {n} (key : arr n) (bit : nat) : res bool :=
  match (key : bytes) !! (bit / 8) with
  | Some v =>
      let extracted := N.land (N.shiftr (Byte.to_N v) (N.of_nat (7 - bit mod 8))) 1 in
      Ok (N.eqb extracted 0)
  | None => Err "Designated bit exceeds key length"
  end.

(** [MULTIPLY_DE_BRUIJN_BIT_POSITION] (src/constants.rs:6). *)
Definition de_bruijn : list nat := [0; 5; 1; 6; 4; 3; 2; 7].

(** [fast_log_2] (tree_utils.rs:172-178) on a [u8] given as an [N]. *)
Definition fast_log_2 (num : N) : nat :=
  let log := N.lor num (N.shiftr num 1) in
  let log := N.lor log (N.shiftr log 2) in
  let log := N.lor log (N.shiftr log 4) in
  nth (N.to_nat (N.shiftr (N.modulo (0x1d * log) 256) 5)) de_bruijn 0.

(** [a ^ b] on [u8], and the expression
    [(i << 3) + 7 - fast_log_2(xor)] shared by tree_utils.rs:97-98,148-149 and
    211-212. *)
Definition xor_byte (a b : byte) : N := N.lxor (Byte.to_N a) (Byte.to_N b).
Definition split_bit_at (i : nat) (a b : byte) : nat :=
  i * 8 + 7 - fast_log_2 (xor_byte a b).

(** [calc_min_split_index] (tree_utils.rs:122-153). *)
Fixpoint first_diff (i : nat) (a b : bytes) : option nat :=
  match a, b with
  | x :: a', y :: b' =>
      if decide (x = y) then first_diff (S i) a' b' else Some (split_bit_at i x y)
  | _, _ => None
  end.

Definition calc_min_split_index {n} (keys : list (arr n)) (branch_key : arr n) : res nat :=
  match head keys, last keys with
  | Some min_key, Some max_key =>
      let '(min_key, max_key) :=
        if arr_ltb branch_key min_key then (branch_key, max_key)
        else if arr_ltb max_key branch_key then (min_key, branch_key)
        else (min_key, max_key) in
      Ok (default (n * 8 - 1) (first_diff 0 min_key max_key))
  | _, _ => Err "Failed to get min key from list of keys."
  end.

(** Inner loop of [check_descendants] (tree_utils.rs:90-103):
    [for j in (min_split_index..branch_split_index).step_by(8)]. *)
Definition step8 (from upto : nat) : list nat :=
  (λ i, from + 8 * i) <$> seq 0 ((upto - from + 7) / 8).

Fixpoint is_descendant (js : list nat) (branch_split_index : nat) (branch_key key : bytes) : res bool :=
  match js with
  | [] => Ok true
  | j :: js' =>
      let byte := j / 8 in
      b ← index branch_key byte;
      k ← index key byte;
      if decide (b = k) then is_descendant js' branch_split_index branch_key key
      else if split_bit_at byte b k <? branch_split_index then Ok false
      else is_descendant js' branch_split_index branch_key key
  end.

(** Outer loop of [check_descendants] (tree_utils.rs:83-113). *)
Fixpoint descendant_range {n} (js : list nat) (bsi : nat) (bk : arr n) (len : nat)
    (keys : list (arr n)) (i start : nat) (found : bool) : res (nat * nat) :=
  match keys with
  | [] => Ok (start, 0)
  | k :: keys' =>
      d ← is_descendant js bsi bk k;
      let '(start, found) :=
        if d && negb found then (i, true) else (start, found) in
      if negb d && found then Ok (start, i)
      else if d && (i =? len - 1) && found then Ok (start, i + 1)
      else descendant_range js bsi bk len keys' (i + 1) start found
  end.

(** [&keys[start..end]]: panics when out of range. *)
Definition slice {A} (xs : list A) (start stop : nat) : res (list A) :=
  if (start <=? stop) && (stop <=? length xs) then Ok (take (stop - start) (drop start xs))
  else Pan.

(** [check_descendants] (tree_utils.rs:77-115). *)
Definition check_descendants {n} (keys : list (arr n)) (branch_split_index : nat)
    (branch_key : arr n) (min_split_index : nat) : res (list (arr n)) :=
  r ← descendant_range (step8 min_split_index branch_split_index) branch_split_index
        branch_key (length keys) keys 0 0 false;
  slice keys r.1 r.2.

(** [slice::binary_search_by] of the Rust standard library (1.62):
    [size = right - left; mid = left + size/2].  [fuel] bounds the iterations;
    [length xs] always suffices. *)
Fixpoint binary_search_by {A} (f : A → comparison) (xs : list A) (fuel left right : nat) : nat + nat :=
  match fuel with
  | 0 => inr left
  | S fuel' =>
      if left <? right then
        let mid := left + (right - left) / 2 in
        match xs !! mid with
        | Some x =>
            match f x with
            | Lt => binary_search_by f xs fuel' (mid + 1) right
            | Gt => binary_search_by f xs fuel' left mid
            | Eq => inl mid
            end
        | None => inr left
        end
      else inr left
  end.

(** [slice::partition_point] (Rust standard library). *)
Definition partition_point {A} (pred : A → bool) (xs : list A) : nat :=
  match binary_search_by (λ x, if pred x then Lt else Gt) xs (length xs) 0 (length xs) with
  | inl i => i
  | inr i => i
  end.

(** [slice::binary_search] (Rust standard library), used at merkle_bit.rs:127. *)
Definition binary_search {n} (xs : list (arr n)) (k : arr n) : option nat :=
  match binary_search_by (λ x, arr_cmp x k) xs (length xs) 0 (length xs) with
  | inl i => Some i
  | inr _ => None
  end.

(** [split_pairs] (tree_utils.rs:42-71). *)
Definition split_pairs {n} (sorted_pairs : list (arr n)) (bit : nat)
    : res (list (arr n) * list (arr n)) :=
  match head sorted_pairs, last sorted_pairs with
  | Some first, Some last =>
      zl ← choose_zero last bit;
      if zl : bool then Ok (sorted_pairs, [])
      else
        zf ← choose_zero first bit;
        if negb zf then Ok ([], sorted_pairs)
        else
          let pp := partition_point
            (λ v, match choose_zero v bit with Ok b => b | _ => false end) sorted_pairs in
          Ok (take pp sorted_pairs, drop pp sorted_pairs)
  | _, _ => Ok ([], [])
  end.

(** Loop over [j] in [generate_tree_ref_queue] (tree_utils.rs:196-219): first
    differing bit of two adjacent references, or the duplicate error when the
    last bytes are reached and equal.  [None]: empty keys, nothing queued. *)
Fixpoint adjacent_split (j : nat) (l r : bytes) : res (option nat) :=
  match l, r with
  | x :: l', y :: r' =>
      if decide (x = y) then
        match l' with
        | [] => Err "Attempted to insert item with duplicate keys"
        | _ => adjacent_split (S j) l' r'
        end
      else Ok (Some (split_bit_at j x y))
  | _, _ => Ok None
  end.

(** [generate_tree_ref_queue] (tree_utils.rs:184-222): the items
    [(split_bit, i, i + 1)] in increasing [i].  The hash map from split bit to
    its items and the set of split bits are derived from this list in
    [create_tree]. *)
Fixpoint generate_items {n} (i : nat) (rs : list (tref n)) : res (list (nat * nat * nat)) :=
  match rs with
  | r1 :: ((r2 :: _) as rs') =>
      s ← adjacent_split 0 (tkey r1) (tkey r2);
      rest ← generate_items (S i) rs';
      Ok (match s with Some s => (s, i, i + 1) :: rest | None => rest end)
  | _ => Ok []
  end.

(** The levels in the order [create_tree] consumes them (merkle_bit.rs:488-499):
    unique split bits sorted, iterated in reverse; each level keeps the order in
    which its items were pushed. *)
Definition levels_of (items : list (nat * nat * nat)) : list (list (nat * nat * nat)) :=
  (λ s, filter (λ it, it.1.1 = s) items) <$>
    reverse (merge_sort le (remove_dups ((λ it, it.1.1) <$> items))).

(** ** Programs
    The methods of [MerkleBIT] as trees of effects.  [Get]/[Put]/[Del]/[Flush]
    are [Database::{get_node, insert, remove, batch_write}] (src/traits.rs:142-167);
    [Hash cs] is a [Hasher] created with [new], fed the chunks [cs] with
    [update] in this order, and [finalize]d (src/traits.rs:16-23).  [Throw] is
    [return Err(..)], [Panic] a Rust panic, [Fuel] the exhaustion of a loop
    bound (proved unreachable). *)
Inductive prog (n : nat) (A : Type) : Type :=
| Ret (a : A)
| Throw (e : string)
| Panic
| Fuel
| Hash (cs : list bytes) (k : arr n → prog n A)
| Get (l : arr n) (k : option (node n) → prog n A)
| Put (l : arr n) (nd : node n) (k : prog n A)
| Del (l : arr n) (k : prog n A)
| Flush (k : prog n A).
Arguments Ret {n A} a.
Arguments Throw {n A} e.
Arguments Panic {n A}.
Arguments Fuel {n A}.
Arguments Hash {n A} cs k.
Arguments Get {n A} l k.
Arguments Put {n A} l nd k.
Arguments Del {n A} l k.
Arguments Flush {n A} k.

Fixpoint pbind {n A B} (f : A → prog n B) (p : prog n A) : prog n B :=
  match p with
  | Ret a => f a
  | Throw e => Throw e
  | Panic => Panic
  | Fuel => Fuel
  | Hash cs k => Hash cs (λ h, pbind f (k h))
  | Get l k => Get l (λ o, pbind f (k o))
  | Put l nd k => Put l nd (pbind f k)
  | Del l k => Del l (pbind f k)
  | Flush k => Flush (pbind f k)
  end.
Global Instance prog_ret n : MRet (prog n) := λ A a, Ret a.
Global Instance prog_bind n : MBind (prog n) := λ A B f p, pbind f p.

Definition lift {n A} (r : res A) : prog n A :=
  match r with Ok a => Ret a | Err e => Throw e | Pan => Panic end.
Definition hash {n} (cs : list bytes) : prog n (arr n) := Hash cs Ret.
Definition get_node {n} (l : arr n) : prog n (option (node n)) := Get l Ret.
Definition db_insert {n} (l : arr n) (nd : node n) : prog n unit := Put l nd (Ret tt).
Definition db_remove {n} (l : arr n) : prog n unit := Del l (Ret tt).
Definition batch_write {n} : prog n unit := Flush (Ret tt).

(** Hash inputs: the chunks fed to the hasher for a data node
    (merkle_bit.rs:428-432), a leaf (441-445) and a branch (557-561). *)
Definition data_in (key value : bytes) : list bytes := [[x64]; key; value].
Definition leaf_in (key dloc : bytes) : list bytes := [[x6c]; key; dloc].
Definition branch_in (zero one : bytes) : list bytes := [[x62]; zero; one].

(** ** The tree
    [V], [encode], [decode]: the value type and its [Encode]/[Decode]
    (src/traits.rs:170-201).  [depth] is the field [MerkleBIT::depth]. *)
Section Tree.
  Context {n : nat} {V : Type}.
  Context (encode : V → res bytes) (decode : bytes → res V).
  Context (max_depth : nat).
  Notation key := (arr n).
  Notation loc := (arr n).

  (** [TreeCell] (src/utils/tree_cell.rs:8-17). *)
  Record cell : Type := Cell {
    cloc : loc; ckeys : list key; cnode : node n; cdepth : nat }.

  (** [insert_leaves] (merkle_bit.rs:415-466); one iteration, then the loop. *)
  Definition insert_leaves_one (values : gmap key V) (k : key) : prog n loc :=
    match values !! k with
    | None => Panic                                   (* values[k] *)
    | Some v =>
        e ← lift (encode v);
        dloc ← hash (data_in k e);
        lloc ← hash (leaf_in k dloc);
        od ← get_node dloc;
        ol ← get_node lloc;
        db_insert dloc (Node (match od with Some nd => refs nd + 1 | None => 1 end) (VData e)) ;;
        db_insert lloc (Node (match ol with Some nd => refs nd + 1 | None => 1 end) (VLeaf k dloc)) ;;
        mret lloc
    end.
  Fixpoint insert_leaves (values : gmap key V) (keys : list key) : prog n (list loc) :=
    match keys with
    | [] => mret []
    | k :: keys' =>
        l ← insert_leaves_one values k;
        ls ← insert_leaves values keys';
        mret (l :: ls)
    end.

  (** [insert_leaf] (merkle_bit.rs:351-361). *)
  Definition insert_leaf (l : loc) : prog n unit :=
    o ← get_node l;
    match o with
    | Some nd => db_insert l (Node (refs nd + 1) (var nd))
    | None => Throw "Corrupt merkle tree: Failed to update leaf references"
    end.

  (** [split_nodes] (merkle_bit.rs:367-411): a reference ([inl]) or a cell. *)
  Definition split_nodes (depth : nat) (b : loc) (node_list : list key) : prog n (tref n + cell) :=
    o ← get_node b;
    match o with
    | None => Throw "Failed to find node in database."
    | Some nd =>
        match node_list with
        | [] =>
            match var nd with
            | VBranch count zero one si bk =>
                db_insert b (Node (refs nd + 1) (VBranch count zero one si bk)) ;;
                mret (inl (TRef bk b count 1))
            | VLeaf lk ld =>
                db_insert b (Node (refs nd + 1) (VLeaf lk ld)) ;;
                mret (inl (TRef lk b 1 1))
            | VData _ => Throw "Corrupt merkle tree: Found data node while traversing tree"
            end
        | _ => mret (inr (Cell b node_list nd (depth + 1)))
        end
    end.

  (** [traverse_tree] (merkle_bit.rs:252-348).  The deque used with
      [push_front]/[pop_front] is a list; [acc] is [proof_nodes]. *)
  Definition push_split (r : tref n + cell) (acc : list (tref n)) (q : list cell)
      : list (tref n) * list cell :=
    match r with
    | inl t => (acc ++ [t], q)
    | inr c => (acc, c :: q)
    end.
  Fixpoint traverse_tree (fuel : nat) (key_map : gmap key loc)
      (acc : list (tref n)) (queue : list cell) : prog n (list (tref n)) :=
    match queue with
    | [] => mret acc
    | c :: q =>
        match fuel with
        | 0 => Fuel
        | S fuel' =>
            if max_depth <? cdepth c then Throw "Depth of merkle tree exceeded"
            else
              match var (cnode c) with
              | VData _ => Throw "Corrupt merkle tree: Found data node while traversing tree"
              | VLeaf lk _ =>
                  match key_map !! lk with
                  | Some l =>
                      if decide (l = cloc c)
                      then insert_leaf (cloc c) ;; traverse_tree fuel' key_map acc q
                      else traverse_tree fuel' key_map acc q
                  | None =>
                      insert_leaf (cloc c) ;;
                      traverse_tree fuel' key_map (acc ++ [TRef lk (cloc c) 1 1]) q
                  end
              | VBranch count zero one si bk =>
                  m ← lift (calc_min_split_index (ckeys c) bk);
                  descendants ←
                    (if m <? si
                     then lift (check_descendants (ckeys c) si bk m)
                     else mret (ckeys c));
                  if (m <? si) && (length descendants =? 0) then
                    db_insert (cloc c) (Node (refs (cnode c) + 1) (VBranch count zero one si bk)) ;;
                    traverse_tree fuel' key_map (acc ++ [TRef bk (cloc c) count 1]) q
                  else
                    zo ← lift (split_pairs descendants si);
                    r1 ← split_nodes (cdepth c) one zo.2;
                    let '(acc, q) := push_split r1 acc q in
                    r0 ← split_nodes (cdepth c) zero zo.1;
                    let '(acc, q) := push_split r0 acc q in
                    traverse_tree fuel' key_map acc q
              end
        end
    end.

  (** Loop bound used for the two stack traversals: [keys * (depth + 2) + 1]. *)
  Definition traverse_fuel (keys : list key) : nat := length keys * (max_depth + 2) + 1.

  (** [generate_treerefs] (merkle_bit.rs:227-249). *)
  Definition generate_treerefs (root : loc) (keys : list key) (key_map : gmap key loc)
      : prog n (list (tref n)) :=
    o ← get_node root;
    match o with
    | None => Throw "Could not find root"
    | Some nd => traverse_tree (traverse_fuel keys) key_map [] [Cell root keys nd 0]
    end.

  (** The lookahead loop of [merge_nodes] (merkle_bit.rs:537-553).  Returns
      [(lookahead_tree_ref_pointer, lookahead_count)]. *)
  Fixpoint lookahead (fuel : nat) (rs : list (tref n)) (p count_ : nat) : res (nat * nat) :=
    let ptr := p + count_ in
    r ← index rs ptr;
    if count_ <? tcount r then
      match fuel with
      | 0 => Err "fuel"
      | S fuel' => lookahead fuel' rs p (tcount r)
      end
    else Ok (ptr, tcount r).

  (** One iteration of [merge_nodes] (merkle_bit.rs:530-588): returns the
      updated array and the location of the new branch. *)
  Definition merge_one (rs : list (tref n)) (item : nat * nat * nat) : prog n (list (tref n) * loc) :=
    let '(split_index, p, next) := item in
    rp ← lift (index rs p);
    rn ← lift (index rs next);
    la ← lift (if 1 <? tcount rn then lookahead (length rs) rs p (tcount rn)
               else Ok (next, tcount rn));
    rl ← lift (index rs la.1);
    let count := tnodes rp + tnodes rl in
    bloc ← hash (branch_in (tloc rp) (tloc rl));
    db_insert bloc (Node 1 (VBranch count (tloc rp) (tloc rl) split_index (tkey rp))) ;;
    let new := TRef (tkey rp) bloc count (la.2 + tcount rp) in
    mret (<[p := new]> (<[la.1 := new]> rs), bloc).

  (** [merge_nodes] (merkle_bit.rs:520-592): all items of a level, then
      [batch_write].  [None] in the accumulator is the initial zero array, which
      is returned only for an empty level (there is none). *)
  Fixpoint merge_level (rs : list (tref n)) (root : loc) (level : list (nat * nat * nat))
      : prog n (list (tref n) * loc) :=
    match level with
    | [] => mret (rs, root)
    | it :: level' =>
        r ← merge_one rs it;
        merge_level r.1 r.2 level'
    end.
  Definition merge_nodes (rs : list (tref n)) (level : list (nat * nat * nat))
      : prog n (list (tref n) * loc) :=
    r ← merge_level rs (mkarr n []) level;
    batch_write ;;
    mret r.

  (** The level loop of [create_tree] (merkle_bit.rs:492-500). *)
  Fixpoint merge_all (rs : list (tref n)) (root : option loc) (levels : list (list (nat * nat * nat)))
      : prog n (option loc) :=
    match levels with
    | [] => mret root
    | level :: levels' =>
        r ← merge_nodes rs level;
        merge_all r.1 (Some r.2) levels'
    end.

  (** [create_tree] (merkle_bit.rs:473-501). *)
  Definition create_tree (rs : list (tref n)) : prog n loc :=
    match rs with
    | [] => Throw "tree_refs should not be empty!"
    | [r] => batch_write ;; mret (tloc r)
    | _ =>
        let rs := sort_refs rs in
        items ← lift (generate_items 0 rs);
        o ← merge_all rs None (levels_of items);
        match o with
        | Some root => mret root
        | None => Throw "Failed to get root."
        end
    end.

  (** [HashMap] built from the argument slices; a later duplicate wins
      (merkle_bit.rs:198-201). *)
  Definition value_map_of (keys : list key) (values : list V) : gmap key V :=
    foldl (λ m kv, <[kv.1 := kv.2]> m) ∅ (zip keys values).

  (** [key_map] (merkle_bit.rs:208-213). *)
  Definition key_map_of (keys : list key) (locs : list loc) : gmap key loc :=
    foldl (λ m kl, <[kl.1 := kl.2]> m) ∅ (zip keys locs).

  (** Common tail of [insert] (merkle_bit.rs:205-221) and [insert_one]
      (merkle_bit.rs:885-903), on sorted keys. *)
  Definition insert_sorted (previous_root : option loc) (keys : list key) (value_map : gmap key V)
      : prog n loc :=
    nodes ← insert_leaves value_map keys;
    let tree_refs := zip_with (λ l k, TRef k l 1 1) nodes keys in
    let key_map := key_map_of keys nodes in
    proof_nodes ←
      (match previous_root with
       | Some root => generate_treerefs root keys key_map
       | None => mret []
       end);
    create_tree (tree_refs ++ proof_nodes).

  (** [insert] (merkle_bit.rs:184-222). *)
  Definition insert (previous_root : option loc) (keys : list key) (values : list V) : prog n loc :=
    if negb (length keys =? length values) then Throw "Keys and values have different lengths"
    else if (length keys =? 0) || (length values =? 0) then Throw "Keys or values are empty"
    else insert_sorted previous_root (sort_keys keys) (value_map_of keys values).

  (** [keys] is [&mut [Array<N>]] and is sorted in place (merkle_bit.rs:203),
      after the two checks of the arguments; [values] is not reordered.  This is
      the caller's slice of keys when [insert] returns, with any outcome. *)
  Definition keys_after_insert (keys : list key) (values : list V) : list key :=
    if negb (length keys =? length values) then keys
    else if (length keys =? 0) || (length values =? 0) then keys
    else sort_keys keys.

  (** [insert_one] (merkle_bit.rs:879-904). *)
  Definition insert_one (previous_root : option loc) (k : key) (v : V) : prog n loc :=
    insert_sorted previous_root [k] {[ k := v ]}.

  (** [push_cell_if_node] (merkle_bit.rs:159-178). *)
  Definition push_cell_if_node (queue : list cell) (depth : nat) (l : loc) (keys : list key)
      : prog n (list cell) :=
    o ← get_node l;
    match o with
    | Some nd =>
        match keys with
        | [] => mret queue
        | _ => mret (Cell l keys nd (depth + 1) :: queue)
        end
    | None => mret queue
    end.

  (** Main loop of [get] (merkle_bit.rs:99-153). *)
  Fixpoint get_loop (fuel : nat) (keys : list key) (leaf_map : gmap key (option V))
      (queue : list cell) : prog n (gmap key (option V)) :=
    match queue with
    | [] => mret leaf_map
    | c :: q =>
        match fuel with
        | 0 => Fuel
        | S fuel' =>
            if max_depth <? cdepth c then Throw "Depth of merkle tree exceeded"
            else
              match var (cnode c) with
              | VBranch _ zero one si bk =>
                  m ← lift (calc_min_split_index (ckeys c) bk);
                  descendants ← lift (check_descendants (ckeys c) si bk m);
                  match descendants with
                  | [] => get_loop fuel' keys leaf_map q
                  | _ =>
                      zo ← lift (split_pairs descendants si);
                      q ← push_cell_if_node q (cdepth c) one zo.2;
                      q ← push_cell_if_node q (cdepth c) zero zo.1;
                      get_loop fuel' keys leaf_map q
                  end
              | VLeaf lk ld =>
                  o ← get_node ld;
                  match o with
                  | Some nd =>
                      match var nd with
                      | VData e =>
                          v ← lift (decode e);
                          match binary_search keys lk with
                          | Some i =>
                              k ← lift (index keys i);
                              get_loop fuel' keys (<[k := Some v]> leaf_map) q
                          | None => get_loop fuel' keys leaf_map q
                          end
                      | _ => Throw "Corrupt merkle tree: Found non data node after leaf"
                      end
                  | None => Throw "Corrupt merkle tree: Failed to get leaf node from DB"
                  end
              | VData _ => Throw "Corrupt merkle tree: Found data node while traversing tree"
              end
        end
    end.

  (** [generate_leaf_map] (tree_utils.rs:159-167). *)
  Definition generate_leaf_map (keys : list key) : gmap key (option V) :=
    foldl (λ m k, <[k := None]> m) ∅ keys.

  (** [get] (merkle_bit.rs:77-156). *)
  Definition get (root : loc) (keys : list key) : prog n (gmap key (option V)) :=
    match keys with
    | [] => mret ∅
    | _ =>
        let leaf_map := generate_leaf_map keys in
        let keys := sort_keys keys in
        o ← get_node root;
        match o with
        | None => mret leaf_map
        | Some nd => get_loop (traverse_fuel keys) keys leaf_map [Cell root keys nd 0]
        end
    end.

  (** The caller's slice of keys when [get] returns (merkle_bit.rs:88). *)
  Definition keys_after_get (keys : list key) : list key :=
    match keys with [] => [] | _ => sort_keys keys end.

  (** [get_one] (merkle_bit.rs:809-873).  The queue holds at most one location;
      the loop is recursion on it, [d] counts the nodes popped so far. *)
  Fixpoint get_one_loop (fuel : nat) (k : key) (d : nat) (found_leaf : bool) (l : loc)
      : prog n (option V) :=
    match fuel with
    | 0 => Fuel
    | S fuel' =>
        if max_depth <? d then Throw "Depth limit exceeded"
        else
          o ← get_node l;
          match o with
          | None => mret None
          | Some nd =>
              match var nd with
              | VBranch _ zero one si bk =>
                  if found_leaf : bool then Throw "Corrupt Merkle Tree"
                  else
                    m ← lift (calc_min_split_index [k] bk);
                    descendants ← lift (check_descendants [k] si bk m);
                    match descendants with
                    | [] => mret None
                    | _ =>
                        z ← lift (choose_zero k si);
                        get_one_loop fuel' k (d + 1) found_leaf (if z : bool then zero else one)
                    end
              | VLeaf lk ld =>
                  if found_leaf : bool then Throw "Corrupt Merkle Tree"
                  else if decide (lk = k) then get_one_loop fuel' k (d + 1) true ld
                  else mret None
              | VData e =>
                  if negb found_leaf then Throw "Corrupt Merkle Tree"
                  else
                    v ← lift (decode e);
                    mret (Some v)
              end
          end
    end.
  Definition get_one (root : loc) (k : key) : prog n (option V) :=
    get_one_loop (max_depth + 2) k 0 false root.

  (** [generate_inclusion_proof] (merkle_bit.rs:663-744).  [acc] is the vector
      [proof], reversed on return. *)
  Fixpoint gen_proof_loop (fuel : nat) (k : key) (d : nat) (found_leaf : bool)
      (acc : list (loc * bool)) (l : loc) : prog n (list (loc * bool)) :=
    match fuel with
    | 0 => Fuel
    | S fuel' =>
        if max_depth <? d then Throw "Depth limit exceeded"
        else
          o ← get_node l;
          match o with
          | None => Throw "Failed to find node"
          | Some nd =>
              match var nd with
              | VBranch _ zero one si bk =>
                  if found_leaf : bool then Throw "Corrupt Merkle Tree"
                  else
                    m ← lift (calc_min_split_index [k] bk);
                    descendants ← lift (check_descendants [k] si bk m);
                    match descendants with
                    | [] => Throw "Key not found in tree"
                    | _ =>
                        z ← lift (choose_zero k si);
                        if z : bool
                        then gen_proof_loop fuel' k (d + 1) found_leaf (acc ++ [(one, true)]) zero
                        else gen_proof_loop fuel' k (d + 1) found_leaf (acc ++ [(zero, false)]) one
                    end
              | VLeaf lk ld =>
                  if found_leaf : bool then Throw "Corrupt Merkle Tree"
                  else if decide (lk = k) then
                    lloc ← hash (leaf_in lk ld);
                    gen_proof_loop fuel' k (d + 1) true (acc ++ [(lloc, false)]) ld
                  else Throw "Key not found in tree"
              | VData e =>
                  if negb found_leaf then Throw "Corrupt Merkle Tree"
                  else
                    dloc ← hash (data_in k e);
                    mret (reverse (acc ++ [(dloc, false)]))
              end
          end
    end.
  Definition generate_inclusion_proof (root : loc) (k : key) : prog n (list (loc * bool)) :=
    gen_proof_loop (max_depth + 2) k 0 false [] root.

  (** [verify_inclusion_proof] (merkle_bit.rs:750-803). *)
  Fixpoint verify_fold (cur : loc) (items : list (loc * bool)) : prog n loc :=
    match items with
    | [] => mret cur
    | (h, b) :: items' =>
        cur' ← hash (if b : bool then branch_in cur h else branch_in h cur);
        verify_fold cur' items'
    end.
  Definition verify_inclusion_proof (root : loc) (k : key) (v : V) (proof : list (loc * bool))
      : prog n unit :=
    match proof with
    | p0 :: p1 :: items =>
        e ← lift (encode v);
        data_hash ← hash (data_in k e);
        if decide (data_hash = p0.1) then
          leaf_hash ← hash (leaf_in k data_hash);
          if decide (leaf_hash = p1.1) then
            cur ← verify_fold leaf_hash items;
            if decide (root = cur) then mret tt else Throw "Proof is invalid"
          else Throw "Proof is invalid"
        else Throw "Proof is invalid"
    | _ => Throw "Proof is too short to be valid"
    end.

  (** [remove] (merkle_bit.rs:598-656): FIFO queue of locations. *)
  Fixpoint remove_loop (fuel : nat) (queue : list loc) : prog n unit :=
    match queue with
    | [] => batch_write
    | l :: q =>
        match fuel with
        | 0 => Fuel
        | S fuel' =>
            o ← get_node l;
            match o with
            | None => remove_loop fuel' q
            | Some nd =>
                let rf := refs nd - 1 in               (* saturating_sub *)
                if rf =? 0 then
                  match var nd with
                  | VBranch _ zero one _ _ => db_remove l ;; remove_loop fuel' (q ++ [zero; one])
                  | VLeaf _ ld => db_remove l ;; remove_loop fuel' (q ++ [ld])
                  | VData _ => db_remove l ;; remove_loop fuel' q
                  end
                else db_insert l (Node rf (var nd)) ;; remove_loop fuel' q
            end
        end
    end.
  Definition remove (fuel : nat) (root : loc) : prog n unit := remove_loop fuel [root].
End Tree.

(** ** Backends and execution *)

(** What [M::Database] must provide (src/traits.rs:142-167).  [b_vis] is the
    map [get_node] reads from; it is also what survives a crash. *)
Record backend (n : nat) : Type := Backend {
  b_st : Type;
  b_init : b_st;             (* a new database *)
  b_vis : b_st → gmap (arr n) (node n);
  b_put : b_st → arr n → node n → b_st;
  b_del : b_st → arr n → b_st;
  b_flush : b_st → b_st;
  b_drop : b_st → b_st;      (* queued writes lost *)
}.
Arguments b_st {n} b.
Arguments b_init {n} b.
Arguments b_vis {n} b.
Arguments b_put {n} b.
Arguments b_del {n} b.
Arguments b_flush {n} b.
Arguments b_drop {n} b.

(** [HashDB] (src/tree_db/hashmap.rs:30-62; src/tree_db/hashbrown.rs is the
    same over another map type): [batch_write] does nothing. *)
Definition hash_db (n : nat) : backend n := {|
  b_st := gmap (arr n) (node n);
  b_init := ∅;
  b_vis := λ m, m;
  b_put := λ m l nd, <[l := nd]> m;
  b_del := λ m l, delete l m;
  b_flush := λ m, m;
  b_drop := λ m, m;
|}.

(** [RocksDB] (src/tree_db/rocksdb.rs:37-80): [insert] only queues into the
    pending [WriteBatch], [get_node] reads the committed database, [remove]
    deletes from the committed database at once, [batch_write] commits the
    queue.  The queue is taken out of the structure before it is written
    (rocksdb.rs:74), so a failing [batch_write] loses it, as does a crash
    ([b_drop]).  Simplification: nodes are stored as values, not as bytes
    (serialization is treated in Codec.v). *)
Record rocks_st (n : nat) : Type := Rocks {
  committed : gmap (arr n) (node n);
  pending : list (arr n * node n);
}.
Arguments Rocks {n} committed pending.
Arguments committed {n} r.
Arguments pending {n} r.

Definition apply_batch {n} (m : gmap (arr n) (node n)) (b : list (arr n * node n)) :=
  foldl (λ m p, <[p.1 := p.2]> m) m b.

Definition rocks_db (n : nat) : backend n := {|
  b_st := rocks_st n;
  b_init := Rocks ∅ [];
  b_vis := committed;
  b_put := λ s l nd, Rocks (committed s) (pending s ++ [(l, nd)]);
  b_del := λ s l, Rocks (delete l (committed s)) (pending s);
  b_flush := λ s, Rocks (apply_batch (committed s) (pending s)) [];
  b_drop := λ s, Rocks (committed s) [];
|}.

(** Outcome of a call. *)
Inductive outcome (A : Type) : Type :=
| ROk (a : A)
| RErr (e : string)
| RPanic
| RFuel.
Arguments ROk {A} a.
Arguments RErr {A} e.
Arguments RPanic {A}.
Arguments RFuel {A}.

(** Sequential execution: outcome, final state, and the list of hash inputs. *)
Section Run.
  Context {n : nat} (B : backend n) (H : list bytes → arr n).

  Fixpoint run {A} (p : prog n A) (st : b_st B) : outcome A * b_st B * list (list bytes) :=
    match p with
    | Ret a => (ROk a, st, [])
    | Throw e => (RErr e, st, [])
    | Panic => (RPanic, st, [])
    | Fuel => (RFuel, st, [])
    | Hash cs k => let '(o, st', log) := run (k (H cs)) st in (o, st', cs :: log)
    | Get l k => run (k (b_vis B st !! l)) st
    | Put l nd k => run k (b_put B st l nd)
    | Del l k => run k (b_del B st l)
    | Flush k => run k (b_flush B st)
    end.

  Definition out {A} (p : prog n A) (st : b_st B) : outcome A := (run p st).1.1.
  Definition fin {A} (p : prog n A) (st : b_st B) : b_st B := (run p st).1.2.
  Definition hlog {A} (p : prog n A) (st : b_st B) : list (list bytes) := (run p st).2.

  (** The states the execution goes through, in order.  A crash leaves
      [b_drop st] for one of them. *)
  Fixpoint states {A} (p : prog n A) (st : b_st B) : list (b_st B) :=
    st :: match p with
          | Ret _ | Throw _ | Panic | Fuel => []
          | Hash cs k => states (k (H cs)) st
          | Get l k => states (k (b_vis B st !! l)) st
          | Put l nd k => states k (b_put B st l nd)
          | Del l k => states k (b_del B st l)
          | Flush k => states k (b_flush B st)
          end.

  (** The number of [get_node] calls of an execution. *)
  Fixpoint fetches {A} (p : prog n A) (st : b_st B) : nat :=
    match p with
    | Ret _ | Throw _ | Panic | Fuel => 0
    | Hash cs k => fetches (k (H cs)) st
    | Get l k => S (fetches (k (b_vis B st !! l)) st)
    | Put l nd k => fetches k (b_put B st l nd)
    | Del l k => fetches k (b_del B st l)
    | Flush k => fetches k (b_flush B st)
    end.

  (** Execution in which the [i]-th database operation (counted from 0) fails
      with an exception and has no effect, except that a failing [batch_write]
      loses the queue.  Every call site uses [?], so the method returns. *)
  Fixpoint run_fault {A} (i : nat) (p : prog n A) (st : b_st B) : outcome A * b_st B :=
    match p with
    | Ret a => (ROk a, st)
    | Throw e => (RErr e, st)
    | Panic => (RPanic, st)
    | Fuel => (RFuel, st)
    | Hash cs k => run_fault i (k (H cs)) st
    | Get l k =>
        match i with
        | 0 => (RErr "database failure", st)
        | S i' => run_fault i' (k (b_vis B st !! l)) st
        end
    | Put l nd k =>
        match i with
        | 0 => (RErr "database failure", st)
        | S i' => run_fault i' k (b_put B st l nd)
        end
    | Del l k =>
        match i with
        | 0 => (RErr "database failure", st)
        | S i' => run_fault i' k (b_del B st l)
        end
    | Flush k =>
        match i with
        | 0 => (RErr "database failure", b_drop B st)
        | S i' => run_fault i' k (b_flush B st)
        end
    end.

  (** [remove] as called by a user.  The Rust loop has no bound; the model's
      bound [3 * entries + 2] is proved to be never reached (Total.v). *)
  Definition remove_prog (st : b_st B) (root : arr n) : prog n unit :=
    remove (3 * size (b_vis B st) + 2) root.
End Run.
