(** * The other serialization features: model
    Besides [bincode] (Codec.v) the crate offers the features [json], [cbor],
    [yaml], [pickle] and [ron] (Cargo.toml:80-85; src/tree/tree_node.rs:88-128
    and 138-175).  What the [serde] instances of src do is independent of the
    format and modelled here on documents; the format itself is a pair of a
    writer and a reader of documents, and JSON is given concretely.  As in
    Codec.v, the behaviour of the crates [serde] and [serde_json] is transcribed
    from their documentation, they are not part of /repo. *)
From Coq Require Import Strings.Byte Strings.String NArith.
From stdpp Require Import prelude countable gmap sorting strings.
From Verif Require Import Model Codec.

Local Open Scope nat_scope.

(** ** Documents
    What a self-describing format stores: numbers, text, sequences, and maps
    from names.  A struct is a map from its field names, a newtype variant of an
    enum a map from its name to its content ("externally tagged"). *)
Inductive doc : Type :=
  | DNum (x : N)
  | DStr (s : bytes)
  | DSeq (l : list doc)
  | DMap (l : list (bytes * doc)).

Definition name (s : string) : bytes := list_byte_of_string s.

(** ** Writing *)
(** [Serialize for Array<N>] (src/lib.rs:219-228): [serialize_seq], then every
    byte; the same for the [Vec<u8>] of [TreeData]
    (src/tree/tree_data.rs:27-30). *)
Definition ser_bytes (l : bytes) : doc := DSeq ((λ b, DNum (Byte.to_N b)) <$> l).
Definition ser_num (x : nat) : doc := DNum (N.of_nat x).
(** Derived instances of [TreeBranch] (src/tree/tree_branch.rs:30-43),
    [TreeLeaf] (src/tree/tree_leaf.rs:27-33), [TreeData], [NodeVariant]
    (src/traits.rs:129-139) and [TreeNode] (src/tree/tree_node.rs:29-36). *)
Definition ser_variant {n} (v : variant n) : doc :=
  match v with
  | VBranch count zero one si key =>
      DMap [(name "Branch", DMap [(name "count", ser_num count); (name "zero", ser_bytes zero);
        (name "one", ser_bytes one); (name "split_index", ser_num si); (name "key", ser_bytes key)])]
  | VLeaf key data =>
      DMap [(name "Leaf", DMap [(name "key", ser_bytes key); (name "data", ser_bytes data)])]
  | VData value => DMap [(name "Data", DMap [(name "value", ser_bytes value)])]
  end.
Definition ser_node {n} (nd : node n) : doc :=
  DMap [(name "references", ser_num (refs nd)); (name "node", ser_variant (var nd))].

(** ** Reading *)
Definition de_num (bound : N) (d : doc) : res N :=
  match d with
  | DNum x => if (x <? bound)%N then Ok x else Err "invalid value"
  | _ => Err "invalid type"
  end.
Definition de_u64 (d : doc) : res nat := x ← de_num (2 ^ 64) d; Ok (N.to_nat x).
Definition de_u8 (d : doc) : res byte := x ← de_num 256 d; Ok (byte_of x).
Fixpoint res_list {A B} (f : A → res B) (l : list A) : res (list B) :=
  match l with
  | [] => Ok []
  | x :: l' => y ← f x; ys ← res_list f l'; Ok (y :: ys)
  end.
(** [Vec<u8>]: a sequence of numbers below 256. *)
Definition de_vec (d : doc) : res bytes :=
  match d with DSeq l => res_list de_u8 l | _ => Err "invalid type" end.
(** [Deserialize for Array<N>] (src/lib.rs:254-260) asks for bytes.  Text is
    handed to [ArrayVisitor::visit_bytes], a sequence to
    [ArrayVisitor::visit_seq], numbers and maps are refused.  [vseq] is
    [visit_seq]. *)
Definition de_arr {n} (vseq : list doc → res (arr n)) (d : doc) : res (arr n) :=
  match d with
  | DStr s => Ok (visit_bytes n s)
  | DSeq l => vseq l
  | _ => Err "invalid type"
  end.
(** [ArrayVisitor] (src/lib.rs:234-252) has no [visit_seq], so that it is the
    default method of [serde::de::Visitor]: an error that mentions what
    [expecting] says. *)
Definition visit_seq {n} (l : list doc) : res (arr n) :=
  Err "invalid type: sequence, expected an unsigned integer from 0 to 255".
(** A [visit_seq] that would read back what [serialize] writes.  Not part of
    /repo. *)
Definition visit_seq_fixed {n} (l : list doc) : res (arr n) :=
  v ← res_list de_u8 l; Ok (visit_bytes n v).

(** The fields of a struct: by name, others ignored; or in order. *)
Definition field (s : bytes) (l : list (bytes * doc)) : res doc :=
  match (λ p, p.2) <$> filter (λ p, p.1 = s) l with
  | [d] => Ok d
  | [] => Err "missing field"
  | _ => Err "duplicate field"
  end.
Definition de_struct (names : list bytes) (d : doc) : res (list doc) :=
  match d with
  | DMap l => res_list (λ s, field s l) names
  | DSeq l => if length l =? length names then Ok l else Err "invalid length"
  | _ => Err "invalid type"
  end.
Section De.
  Context {n : nat} (vseq : list doc → res (arr n)).
  Definition de_branch (d : doc) : res (variant n) :=
    fs ← de_struct [name "count"; name "zero"; name "one"; name "split_index"; name "key"] d;
    match fs with
    | [c; z; o; s; k] =>
        c ← de_u64 c; z ← de_arr vseq z; o ← de_arr vseq o; s ← de_u64 s; k ← de_arr vseq k;
        Ok (VBranch c z o s k)
    | _ => Err "invalid length"
    end.
  Definition de_leaf (d : doc) : res (variant n) :=
    fs ← de_struct [name "key"; name "data"] d;
    match fs with
    | [k; v] => k ← de_arr vseq k; v ← de_arr vseq v; Ok (VLeaf k v)
    | _ => Err "invalid length"
    end.
  Definition de_data (d : doc) : res (variant n) :=
    fs ← de_struct [name "value"] d;
    match fs with [v] => v ← de_vec v; Ok (VData v) | _ => Err "invalid length" end.
  Definition de_variant (d : doc) : res (variant n) :=
    match d with
    | DMap [(t, c)] =>
        if decide (t = name "Branch") then de_branch c
        else if decide (t = name "Leaf") then de_leaf c
        else if decide (t = name "Data") then de_data c
        else Err "unknown variant"
    | _ => Err "invalid type"
    end.
  Definition de_node (d : doc) : res (node n) :=
    fs ← de_struct [name "references"; name "node"] d;
    match fs with
    | [r; v] => r ← de_u64 r; v ← de_variant v; Ok (Node r v)
    | _ => Err "invalid length"
    end.
End De.

(** ** Formats *)
Record format : Type := Format {
  f_write : doc → bytes;
  f_read : bytes → res doc;
}.
(** [TreeNode::encode] and [TreeNode::decode] (src/tree/tree_node.rs:88-128 and
    138-175). *)
Definition f_enc {n} (F : format) (nd : node n) : bytes := f_write F (ser_node nd).
Definition f_dec_with {n} (vseq : list doc → res (arr n)) (F : format) (b : bytes) : res (node n) :=
  d ← f_read F b; de_node vseq d.
Definition f_dec {n} (F : format) (b : bytes) : res (node n) := f_dec_with visit_seq F b.

(** ** JSON
    [serde_json::to_string]: no white space; numbers in decimal; names in
    quotes (the names of the structs above need no escapes). *)
Definition digit (x : N) : byte := byte_of (48 + x).
Fixpoint wnum (fuel : nat) (x : N) : bytes :=
  match fuel with
  | 0 => []
  | S f => (if (x <? 10)%N then [] else wnum f (x / 10)) ++ [digit (x mod 10)]
  end.
(** 64-bit numbers have at most 20 digits. *)
Definition json_num (x : N) : bytes := wnum 20 x.
Definition json_str (s : bytes) : bytes := x22 :: s ++ [x22].
Fixpoint json_write (d : doc) : bytes :=
  match d with
  | DNum x => json_num x
  | DStr s => json_str s
  | DSeq l =>
      x5b :: (fix go (l : list doc) : bytes :=
        match l with
        | [] => []
        | [d] => json_write d
        | d :: l' => json_write d ++ x2c :: go l'
        end) l ++ [x5d]
  | DMap l =>
      x7b :: (fix go (l : list (bytes * doc)) : bytes :=
        match l with
        | [] => []
        | [(s, d)] => json_str s ++ x3a :: json_write d
        | (s, d) :: l' => json_str s ++ x3a :: json_write d ++ x2c :: go l'
        end) l ++ [x7d]
  end.
(** [serde_json::from_str], for texts without white space, escapes, signs and
    fractions; on others it gives an error. *)
Definition is_digit (b : byte) : bool := (48 <=? Byte.to_N b)%N && (Byte.to_N b <=? 57)%N.
Fixpoint rnum (acc : N) (b : bytes) : N * bytes :=
  match b with
  | c :: b' => if is_digit c then rnum (10 * acc + (Byte.to_N c - 48)) b' else (acc, b)
  | [] => (acc, b)
  end.
(** The next character is [c]. *)
Definition next (c : byte) (b : bytes) : option bytes :=
  match b with d :: b' => if Byte.eqb c d then Some b' else None | [] => None end.
Fixpoint rstr (b : bytes) : res (bytes * bytes) :=
  match b with
  | [] => Err "EOF while parsing a string"
  | c :: b' =>
      if Byte.eqb x22 c then Ok ([], b')
      else if Byte.eqb x5c c then Err "escapes are not modelled"
      else r ← rstr b'; Ok (c :: r.1, r.2)
  end.
Fixpoint rvalue (fuel : nat) (b : bytes) {struct fuel} : res (doc * bytes) :=
  match fuel with
  | 0 => Err "recursion limit exceeded"
  | S f =>
      match next x5b b with
      | Some b1 =>
          match next x5d b1 with
          | Some b2 => Ok (DSeq [], b2)
          | None => r ← relems f b1; Ok (DSeq r.1, r.2)
          end
      | None =>
      match next x7b b with
      | Some b1 =>
          match next x7d b1 with
          | Some b2 => Ok (DMap [], b2)
          | None => r ← rfields f b1; Ok (DMap r.1, r.2)
          end
      | None =>
      match next x22 b with
      | Some b1 => r ← rstr b1; Ok (DStr r.1, r.2)
      | None =>
          match b with
          | c :: _ => if is_digit c then let r := rnum 0 b in Ok (DNum r.1, r.2) else Err "expected value"
          | [] => Err "EOF while parsing a value"
          end
      end end end
  end
with relems (fuel : nat) (b : bytes) {struct fuel} : res (list doc * bytes) :=
  match fuel with
  | 0 => Err "recursion limit exceeded"
  | S f =>
      v ← rvalue f b;
      match next x2c v.2 with
      | Some b1 => r ← relems f b1; Ok (v.1 :: r.1, r.2)
      | None =>
          match next x5d v.2 with
          | Some b1 => Ok ([v.1], b1)
          | None => Err "expected `,` or `]`"
          end
      end
  end
with rfields (fuel : nat) (b : bytes) {struct fuel} : res (list (bytes * doc) * bytes) :=
  match fuel with
  | 0 => Err "recursion limit exceeded"
  | S f =>
      match next x22 b with
      | Some b1 =>
          s ← rstr b1;
          match next x3a s.2 with
          | Some b2 =>
              v ← rvalue f b2;
              match next x2c v.2 with
              | Some b3 => r ← rfields f b3; Ok ((s.1, v.1) :: r.1, r.2)
              | None =>
                  match next x7d v.2 with
                  | Some b3 => Ok ([(s.1, v.1)], b3)
                  | None => Err "expected `,` or `}`"
                  end
              end
          | None => Err "expected `:`"
          end
      | None => Err "key must be a string"
      end
  end.
Definition json_read (b : bytes) : res doc :=
  r ← rvalue (S (length b)) b;
  match r.2 with [] => Ok r.1 | _ => Err "trailing characters" end.
Definition json : format := Format json_write json_read.

(** ** RocksDB with a given encoding of nodes
    As [brun] (Codec.v), which is the instance for [bincode]. *)
Section Fmt.
  Context {n : nat} (fe : node n → bytes) (fd : bytes → res (node n)).
  Definition fput (s : brocks_st n) (l : arr n) (nd : node n) : brocks_st n :=
    BRocks (bcommitted s) (bpending s ++ [(l, fe nd)]).
  Definition fget (s : brocks_st n) (l : arr n) : res (option (node n)) :=
    match bcommitted s !! l with
    | Some b => nd ← fd b; Ok (Some nd)
    | None => Ok None
    end.
  Fixpoint frun {A} (H : list bytes → arr n) (p : prog n A) (s : brocks_st n) : outcome A * brocks_st n :=
    match p with
    | Ret a => (ROk a, s)
    | Throw e => (RErr e, s)
    | Panic => (RPanic, s)
    | Fuel => (RFuel, s)
    | Hash cs k => frun H (k (H cs)) s
    | Get l k =>
        match fget s l with
        | Ok o => frun H (k o) s
        | Err e => (RErr e, s)
        | Pan => (RPanic, s)
        end
    | Put l nd k => frun H k (fput s l nd)
    | Del l k => frun H k (bdel s l)
    | Flush k => frun H k (bflush s)
    end.
End Fmt.

(** The execution of [p] over nodes reads a leaf or a branch. *)
Fixpoint reads_node {n A} (H : list bytes → arr n) (p : prog n A) (s : rocks_st n) : bool :=
  match p with
  | Ret _ | Throw _ | Panic | Fuel => false
  | Hash cs k => reads_node H (k (H cs)) s
  | Get l k =>
      match committed s !! l with
      | Some (Node _ (VBranch _ _ _ _ _)) | Some (Node _ (VLeaf _ _)) => true
      | o => reads_node H (k o) s
      end
  | Put l nd k => reads_node H k (b_put (rocks_db n) s l nd)
  | Del l k => reads_node H k (b_del (rocks_db n) s l)
  | Flush k => reads_node H k (b_flush (rocks_db n) s)
  end.

(** ** Notions used in statements *)
Definition is_data {n} (nd : node n) : bool := match var nd with VData _ => true | _ => false end.
Definition seq_error : string := "invalid type: sequence, expected an unsigned integer from 0 to 255".
(** The format gives back the documents of nodes. *)
Definition faithful (F : format) : Prop :=
  ∀ n (nd : node n), small nd → f_read F (f_write F (ser_node nd)) = Ok (ser_node nd).
(** The database of nodes [s], encoded by [fe]. *)
Definition fser {n} (fe : node n → bytes) (s : rocks_st n) : brocks_st n :=
  BRocks (fe <$> committed s) ((λ p, (p.1, fe p.2)) <$> pending s).
