(** * Specification vocabulary
    Histories of API calls, the map a root is expected to hold, and the
    conditions used in the statements of the properties.  Nothing here refers
    to the internal functions of the tree: only to the API programs of Model.v,
    to their execution, and to the position of the first differing bit of two
    keys ([klcp], Bits.v). *)
From Coq Require Import Strings.Byte NArith.
From stdpp Require Import prelude countable gmap sorting strings.
From Verif Require Import Model Bits.

Local Open Scope nat_scope.

(** ** Hash collisions *)
(** No two different strings of [L] have the same hash. *)
Definition no_collision {n} (H : list bytes → arr n) (L : list (list bytes)) : Prop :=
  ∀ x y, x ∈ L → y ∈ L → H x = H y → x = y.

(** ** Hazardous batches
    [hazard P ks]: relative to the keys [P] of a tree, the batch [ks] contains
    a key [x] that leaves a path [a] of the tree at bit [m], and a key [y] that
    leaves it at a later bit [q], such that
    - no key of the tree leaves [a] between [m] and the next branch [s] on it
      (the branch between [a] and [b]), so [x] and [y] reach that branch
      together;
    - [y] leaves [a] before the branch, in the byte of bit [s - 1], and [x] in
      an earlier byte;
    - the bit position of [m] within its byte is behind that of [s - 1].
    Such a [y] is taken for a descendant of the branch. *)
Definition hazard {n} (P : arr n → Prop) (ks : list (arr n)) : Prop :=
  ∃ a b x y, P a ∧ P b ∧ a ≠ b ∧ x ∈ ks ∧ y ∈ ks ∧
    let s := klcp a b in let m := klcp x a in let q := klcp y a in
    m < 8 * ((s - 1) / 8) ∧ 8 * ((s - 1) / 8) ≤ q ∧ q < s ∧ (s - 1) mod 8 < m mod 8 ∧
    ∀ c, P c → ¬ (m ≤ klcp c a ∧ klcp c a < s).
Definition has_key {n A} (M : gmap (arr n) A) (k : arr n) : Prop := is_Some (M !! k).
Definition benign {n A} (M : gmap (arr n) A) (ks : list (arr n)) : Prop := ¬ hazard (has_key M) ks.

(** ** Misleading batches
    [misled P Q ks]: at the branch of the tree between [a] and [b], at bit [s],
    a key [y] of the batch can be taken for a descendant because of a key [x]
    (the first conditions of [hazard]), a key [d] of the batch with [Q d] is
    really below the branch, and [y] upsets the order of the bits [s]: it comes
    before [d] although it has a one where [d] has a zero, or after [d] although
    it has a zero where [d] has a one. *)
Definition misled {n} (P Q : arr n → Prop) (ks : list (arr n)) : Prop :=
  ∃ a b x y d, P a ∧ P b ∧ a ≠ b ∧ x ∈ ks ∧ y ∈ ks ∧ d ∈ ks ∧ Q d ∧
    let s := klcp a b in let m := klcp x a in let q := klcp y a in
    m < 8 * ((s - 1) / 8) ∧ 8 * ((s - 1) / 8) ≤ q ∧ q < s ∧ (s - 1) mod 8 < m mod 8 ∧ s ≤ klcp d a ∧
    ((klt y d ∧ bit y s = true ∧ bit d s = false) ∨ (klt d y ∧ bit y s = false ∧ bit d s = true)).
(** Batches that an insertion handles correctly. *)
Definition mild {n A} (M : gmap (arr n) A) (ks : list (arr n)) : Prop :=
  benign M ks ∨ ¬ misled (has_key M) (λ _, True) ks.
(** Requests that a multi-key read answers correctly: only requested keys that
    are in the tree can be lost. *)
Definition mild_get {n A} (M : gmap (arr n) A) (ks : list (arr n)) : Prop :=
  benign M ks ∨ ¬ misled (has_key M) (has_key M) ks.

(** ** Calls *)
Inductive call (n : nat) (V : Type) : Type :=
| CInsert (D : nat) (prev : option (arr n)) (ks : list (arr n)) (vs : list V)
| CInsertOne (D : nat) (prev : option (arr n)) (k : arr n) (v : V)
| CGet (D : nat) (root : arr n) (ks : list (arr n))
| CGetOne (D : nat) (root : arr n) (k : arr n)
| CProve (D : nat) (root : arr n) (k : arr n)
| CVerify (root : arr n) (k : arr n) (v : V) (proof : list (arr n * bool)).
Arguments CInsert {n V}. Arguments CInsertOne {n V}. Arguments CGet {n V}.
Arguments CGetOne {n V}. Arguments CProve {n V}. Arguments CVerify {n V}.

Section Spec.
  Context {n : nat} (B : backend n) (H : list bytes → arr n).
  Context {V : Type} (enc : V → res bytes) (dec : bytes → res V).
  Notation key := (arr n).
  Notation kmap := (gmap (arr n) V).

  (** The program of a call, its result dropped. *)
  Definition exec (c : call n V) : prog n unit :=
    match c with
    | CInsert D prev ks vs => insert enc D prev ks vs ;; mret tt
    | CInsertOne D prev k v => insert_one enc D prev k v ;; mret tt
    | CGet D root ks => get dec D root ks ;; mret tt
    | CGetOne D root k => get_one dec D root k ;; mret tt
    | CProve D root k => generate_inclusion_proof D root k ;; mret tt
    | CVerify root k v proof => verify_inclusion_proof enc root k v proof
    end.

  (** Values survive a round trip, encoding and decoding never panic. *)
  Record codec_ok : Prop := {
    enc_no_panic : ∀ v, enc v ≠ Pan;
    dec_no_panic : ∀ e, dec e ≠ Pan;
    dec_enc : ∀ v e, enc v = Ok e → dec e = Ok v;
  }.

  (** The map a previous root stands for. *)
  Definition prev_holds (hs : list (key * kmap)) (prev : option key) (M : kmap) : Prop :=
    match prev with None => M = ∅ | Some r => (r, M) ∈ hs end.
  (** The map that results from inserting a batch. *)
  Definition updated (M : kmap) (ks : list key) (vs : list V) : kmap := list_to_map (zip ks vs) ∪ M.

  (** ** Histories without removals
      [hist st lg hs]: the state [st] is reached from a new database; [lg] is
      the list of all strings hashed so far; [hs] lists the roots returned by
      successful insertions of mild batches, each with the map it should
      hold.  Besides such insertions the history may contain
      - any call with any arguments and any outcome ([hist_call]),
      - calls cut short by a crash: queued writes are lost ([hist_crash]),
      - calls in which one database operation fails ([hist_fault]). *)
  Inductive hist : b_st B → list (list bytes) → list (key * kmap) → Prop :=
  | hist_init : hist (b_init B) [] []
  | hist_insert st lg hs D prev M ks vs r :
      hist st lg hs → prev_holds hs prev M → mild M ks →
      out B H (insert enc D prev ks vs) st = ROk r →
      hist (fin B H (insert enc D prev ks vs) st) (lg ++ hlog B H (insert enc D prev ks vs) st)
           ((r, updated M ks vs) :: hs)
  | hist_call st lg hs c :
      hist st lg hs → hist (fin B H (exec c) st) (lg ++ hlog B H (exec c) st) hs
  | hist_crash st lg hs c st' :
      hist st lg hs → st' ∈ states B H (exec c) st →
      hist (b_drop B st') (lg ++ hlog B H (exec c) st) hs
  | hist_fault st lg hs c i :
      hist st lg hs → hist (run_fault B H i (exec c) st).2 (lg ++ hlog B H (exec c) st) hs.

  (** ** Histories with arbitrary batches
      [uhist st lg us]: every root ever returned by an insertion, of any batch
      whatsoever, is in [us] with the pairs given to the calls it results from,
      the last call first.  The other steps are those of [hist]. *)
  Inductive uhist : b_st B → list (list bytes) → list (key * list (key * V)) → Prop :=
  | uhist_init : uhist (b_init B) [] []
  | uhist_insert st lg us D prev ps ks vs r :
      uhist st lg us → (match prev with None => ps = [] | Some r0 => (r0, ps) ∈ us end) →
      out B H (insert enc D prev ks vs) st = ROk r →
      uhist (fin B H (insert enc D prev ks vs) st) (lg ++ hlog B H (insert enc D prev ks vs) st)
           ((r, zip ks vs ++ ps) :: us)
  | uhist_call st lg us c :
      uhist st lg us → uhist (fin B H (exec c) st) (lg ++ hlog B H (exec c) st) us
  | uhist_crash st lg us c st' :
      uhist st lg us → st' ∈ states B H (exec c) st →
      uhist (b_drop B st') (lg ++ hlog B H (exec c) st) us
  | uhist_fault st lg us c i :
      uhist st lg us → uhist (run_fault B H i (exec c) st).2 (lg ++ hlog B H (exec c) st) us.

  (** The state after a sequence of calls, and the strings they hash. *)
  Fixpoint after (st : b_st B) (cs : list (call n V)) : b_st B :=
    match cs with [] => st | c :: cs' => after (fin B H (exec c) st) cs' end.
  Fixpoint after_log (st : b_st B) (cs : list (call n V)) : list (list bytes) :=
    match cs with
    | [] => []
    | c :: cs' => hlog B H (exec c) st ++ after_log (fin B H (exec c) st) cs'
    end.

  (** [holds st r M]: reading any key of [r] gives the answer of [M], for every
      sufficient depth limit. *)
  Definition holds (st : b_st B) (r : key) (M : kmap) : Prop :=
    ∀ D k, 8 * n + 1 ≤ D → out B H (get_one dec D r k) st = ROk (M !! k).
  (** [serves st r M]: every kind of read of [r] gives the answer of [M]:
      single-key reads, multi-key reads of mild requests, proofs of the keys
      present (which verify), and no proofs of the others. *)
  Definition serves (st : b_st B) (r : key) (M : kmap) : Prop :=
    holds st r M ∧
    (∀ D ks, 8 * n ≤ D → mild_get M ks → ∃ lm, out B H (get dec D r ks) st = ROk lm ∧
       ∀ k, lm !! k = if decide (k ∈ ks) then Some (M !! k) else None) ∧
    (∀ D k v, 8 * n + 1 ≤ D → M !! k = Some v →
       ∃ proof, out B H (generate_inclusion_proof D r k) st = ROk proof ∧
         ∀ (B' : backend n) (st' : b_st B'), out B' H (verify_inclusion_proof enc r k v proof) st' = ROk tt) ∧
    (∀ D k, M !! k = None → ∃ er, out B H (generate_inclusion_proof D r k) st = RErr er).
End Spec.

(** ** Reference counts
    The locations a node refers to, and the number of references to a location
    from the nodes of a database. *)
Definition children {n} (v : variant n) : list (arr n) :=
  match v with VBranch _ zero one _ _ => [zero; one] | VLeaf _ d => [d] | VData _ => [] end.
Definition occurrences {n} (l : arr n) (ls : list (arr n)) : nat := length (filter (λ x, x = l) ls).
Definition pointers {n} (m : gmap (arr n) (node n)) (l : arr n) : nat :=
  map_fold (λ _ nd acc, occurrences l (children (var nd)) + acc) 0 m.

(** ** The shape of a stored tree
    [keys_at m l ks]: the leaves below location [l] have the keys [ks], from
    the zero side to the one side.  [child m l l']: the node at [l] refers to
    [l'].  [branch_ok m c z o si bk]: the fields of a branch are what they are
    meant to be. *)
Section Shape.
  Context {n : nat}.
  Notation key := (arr n).
  Implicit Types (m : gmap (arr n) (node n)) (ks : list key).
  Inductive keys_at m : key → list key → Prop :=
  | keys_leaf l rf k d : m !! l = Some (Node rf (VLeaf k d)) → keys_at m l [k]
  | keys_branch l rf c z o si bk kz ko : m !! l = Some (Node rf (VBranch c z o si bk)) →
      keys_at m z kz → keys_at m o ko → keys_at m l (kz ++ ko).
  Definition child m (l l' : key) : Prop := ∃ nd, m !! l = Some nd ∧ l' ∈ children (var nd).
  Definition branch_ok m (c : nat) (z o : key) (si : nat) (bk : key) : Prop :=
    ∃ kz ko, keys_at m z kz ∧ keys_at m o ko ∧ kz ≠ [] ∧ ko ≠ [] ∧
      c = length kz + length ko ∧
      bk ∈ kz ∧ (∀ k, k ∈ kz ++ ko → k = bk ∨ klt bk k) ∧
      si < 8 * n ∧ (∀ a b i, a ∈ kz ++ ko → b ∈ kz ++ ko → i < si → bit a i = bit b i) ∧
      (∀ k, k ∈ kz → bit k si = false) ∧ (∀ k, k ∈ ko → bit k si = true) ∧
      (∀ l rf c' z' o' si' bk', l ∈ [z; o] → m !! l = Some (Node rf (VBranch c' z' o' si' bk')) → si < si').
  (** A leaf with key [k] is below [r], and its data is [e]. *)
  Definition pair_below m (r k : key) (e : bytes) : Prop :=
    ∃ l d rf rf', rtc (child m) r l ∧ m !! l = Some (Node rf (VLeaf k d)) ∧ m !! d = Some (Node rf' (VData e)).
  (** [x] is on the way from [r] to a leaf with key [k], or is its data. *)
  Definition on_way m (r k x : key) : Prop :=
    ∃ l rf d, m !! l = Some (Node rf (VLeaf k d)) ∧ rtc (child m) r l ∧
      ((rtc (child m) r x ∧ rtc (child m) x l) ∨ x = d).
  (** The tree at [r] has exactly the keys of [M], in order, and its branches are right. *)
  Definition tree_ok {A} m (r : key) (M : gmap key A) : Prop :=
    (∃ ks, keys_at m r ks ∧ (∀ ks', keys_at m r ks' → ks' = ks) ∧ StronglySorted klt ks ∧
       ∀ k, k ∈ ks ↔ has_key M k) ∧
    (∀ l rf c z o si bk, rtc (child m) r l → m !! l = Some (Node rf (VBranch c z o si bk)) →
       branch_ok m c z o si bk).
End Shape.

(** ** Histories with removals
    [rhist st lg hs]: as [hist], but the handles of [hs] are the ones not removed
    yet.  Steps:
    - a successful insertion of a benign batch into no root or into a live
      handle, whose pairs occur in no live handle ([fresh_pairs]),
    - the removal of one live handle,
    - any call that leaves the state as it is,
    - any call cut short, by a crash or a restart, at a point where what is
      visible has not changed. *)
Section Removals.
  Context {n : nat} (B : backend n) (H : list bytes → arr n).
  Context {V : Type} (enc : V → res bytes) (dec : bytes → res V).
  Notation key := (arr n).
  Notation kmap := (gmap (arr n) V).
  Definition fresh_pairs (hs : list (key * kmap)) (ks : list key) (vs : list V) : Prop :=
    ∀ r M k v, (r, M) ∈ hs → (k, v) ∈ zip ks vs → M !! k ≠ Some v.
  Inductive rhist : b_st B → list (list bytes) → list (key * kmap) → Prop :=
  | rhist_init : rhist (b_init B) [] []
  | rhist_insert st lg hs D prev M ks vs r :
      rhist st lg hs → prev_holds hs prev M → benign M ks → fresh_pairs hs ks vs →
      out B H (insert enc D prev ks vs) st = ROk r →
      rhist (fin B H (insert enc D prev ks vs) st) (lg ++ hlog B H (insert enc D prev ks vs) st)
            ((r, updated M ks vs) :: hs)
  | rhist_remove st lg hs r M hs' :
      rhist st lg hs → hs ≡ₚ (r, M) :: hs' →
      rhist (fin B H (remove_prog B st r) st) lg hs'
  | rhist_same st lg hs c :
      rhist st lg hs → fin B H (exec enc dec c) st = st →
      rhist st (lg ++ hlog B H (exec enc dec c) st) hs
  | rhist_lost st lg hs c st' :
      rhist st lg hs → st' ∈ states B H (exec enc dec c) st → b_vis B st' = b_vis B st →
      rhist (b_drop B st') (lg ++ hlog B H (exec enc dec c) st) hs.

  (** [regrows M' N ks vs]: a key [k] of the batch and another key [k'] of [N] are
      such that [M'] and [N] agree on all keys that have at least as many leading
      bits in common with [k] as [k'].  The branch above these keys is then the
      same in the trees of [M'] and [N]; inserting the batch creates it again. *)
  Definition regrows (M' N : kmap) (ks : list key) (vs : list V) : Prop :=
    ∃ k v k', (k, v) ∈ zip ks vs ∧ k' ≠ k ∧ is_Some (N !! k') ∧
      ∀ x, klcp k' k ≤ klcp x k → M' !! x = N !! x.
  (** No branch of a live handle is created again.  It suffices that no pair of
      the batch is in a live handle ([fresh_pairs], lemma [fresh_pairs_branches]
      of Weak.v). *)
  Definition fresh_branches (hs : list (key * kmap)) (M : kmap) (ks : list key) (vs : list V) : Prop :=
    ∀ r M', (r, M') ∈ hs → ¬ regrows M' (updated M ks vs) ks vs.

  (** The same with no condition on the pairs inserted: only used to state which
      properties fail. *)
  Inductive ahist : b_st B → list (list bytes) → list (key * kmap) → Prop :=
  | ahist_init : ahist (b_init B) [] []
  | ahist_insert st lg hs D prev M ks vs r :
      ahist st lg hs → prev_holds hs prev M → benign M ks →
      out B H (insert enc D prev ks vs) st = ROk r →
      ahist (fin B H (insert enc D prev ks vs) st) (lg ++ hlog B H (insert enc D prev ks vs) st)
            ((r, updated M ks vs) :: hs)
  | ahist_remove st lg hs r M hs' :
      ahist st lg hs → hs ≡ₚ (r, M) :: hs' →
      ahist (fin B H (remove_prog B st r) st) lg hs'.
  (** The branches the call makes are not in the tree of a live handle, or are
      there with a count of at most one. *)
  Definition spares (st : b_st B) (hs : list (key * kmap)) (c : call n V) : Prop :=
    ∀ z o : key, branch_in z o ∈ hlog B H (exec enc dec c) st →
      ∀ r M, (r, M) ∈ hs → rtc (child (b_vis B st)) r (H (branch_in z o)) →
      ∀ nd, b_vis B st !! H (branch_in z o) = Some nd → refs nd ≤ 1.
  (** Histories in which calls also fail or are cut short and nothing is
      cleaned up afterwards.  [hs] are the handles still in use.  Steps:
      - a successful insertion of a benign batch into no root or into a live
        handle that creates no branch of a live handle again ([fresh_branches]),
      - such an insertion cut short after any of its database operations,
      - the removal of a live handle, complete or cut short; from then on the
        handle is not in use (cut short before its first operation, this is a
        handle that is forgotten),
      - any state of any call that returns an error,
      - any call that leaves the state as it is,
      - any call cut short by a restart at a point where what is visible has not
        changed,
      - a restart: queued writes are lost,
      - any state of any call that spares the live handles ([spares]): any batch,
        any previous root, also one that was removed or never was a root; the
        root the call returns is not used. *)
  Inductive whist : b_st B → list (list bytes) → list (key * kmap) → Prop :=
  | whist_init : whist (b_init B) [] []
  | whist_insert st lg hs D prev M ks vs r :
      whist st lg hs → prev_holds hs prev M → benign M ks → fresh_branches hs M ks vs →
      out B H (insert enc D prev ks vs) st = ROk r →
      whist (fin B H (insert enc D prev ks vs) st) (lg ++ hlog B H (insert enc D prev ks vs) st)
            ((r, updated M ks vs) :: hs)
  | whist_cut st lg hs D prev M ks vs st' :
      whist st lg hs → prev_holds hs prev M → benign M ks → fresh_branches hs M ks vs →
      st' ∈ states B H (insert enc D prev ks vs) st →
      whist st' (lg ++ hlog B H (insert enc D prev ks vs) st) hs
  | whist_remove st lg hs r M hs' st' :
      whist st lg hs → hs ≡ₚ (r, M) :: hs' → st' ∈ states B H (remove_prog B st r) st →
      whist st' lg hs'
  | whist_error st lg hs c er st' :
      whist st lg hs → out B H (exec enc dec c) st = RErr er → st' ∈ states B H (exec enc dec c) st →
      whist st' (lg ++ hlog B H (exec enc dec c) st) hs
  | whist_same st lg hs c :
      whist st lg hs → fin B H (exec enc dec c) st = st →
      whist st (lg ++ hlog B H (exec enc dec c) st) hs
  | whist_lost st lg hs c st' :
      whist st lg hs → st' ∈ states B H (exec enc dec c) st → b_vis B st' = b_vis B st →
      whist (b_drop B st') (lg ++ hlog B H (exec enc dec c) st) hs
  | whist_restart st lg hs : whist st lg hs → whist (b_drop B st) lg hs
  | whist_any st lg hs c st' :
      whist st lg hs → spares st hs c → st' ∈ states B H (exec enc dec c) st →
      whist st' (lg ++ hlog B H (exec enc dec c) st) hs.
  (** Histories of successful insertions (benign, [fresh_branches]), complete
      removals and calls that change nothing.  [F] says that the batches inserted
      held no pair that some handle then alive already held. *)
  Inductive shist : b_st B → list (list bytes) → list (key * kmap) → Prop → Prop :=
  | shist_init : shist (b_init B) [] [] True
  | shist_insert st lg hs F D prev M ks vs r :
      shist st lg hs F → prev_holds hs prev M → benign M ks → fresh_branches hs M ks vs →
      out B H (insert enc D prev ks vs) st = ROk r →
      shist (fin B H (insert enc D prev ks vs) st) (lg ++ hlog B H (insert enc D prev ks vs) st)
            ((r, updated M ks vs) :: hs) (F ∧ fresh_pairs hs ks vs)
  | shist_remove st lg hs F r M hs' :
      shist st lg hs F → hs ≡ₚ (r, M) :: hs' →
      shist (fin B H (remove_prog B st r) st) lg hs' F
  | shist_same st lg hs F c :
      shist st lg hs F → fin B H (exec enc dec c) st = st →
      shist st (lg ++ hlog B H (exec enc dec c) st) hs F.
  (** [r] is a root in use that stands for [M]: in a history without removals, or
      in one with removals, failures and interruptions. *)
  Definition live (st : b_st B) (lg : list (list bytes)) (r : key) (M : kmap) : Prop :=
    ∃ hs, (hist B H enc dec st lg hs ∨ whist st lg hs) ∧ (r, M) ∈ hs.
End Removals.

(** ** The same calls on two backends
    As [hist], but every call is made on both backends with the same arguments;
    the roots are those the first backend returns. *)
Section Both.
  Context {n : nat} (B1 B2 : backend n) (H : list bytes → arr n).
  Context {V : Type} (enc : V → res bytes) (dec : bytes → res V).
  Inductive both : b_st B1 → b_st B2 → list (list bytes) → list (list bytes) →
      list (arr n * gmap (arr n) V) → Prop :=
  | both_init : both (b_init B1) (b_init B2) [] [] []
  | both_insert st1 st2 lg1 lg2 hs D prev M ks vs r :
      both st1 st2 lg1 lg2 hs → prev_holds hs prev M → mild M ks →
      out B1 H (insert enc D prev ks vs) st1 = ROk r →
      both (fin B1 H (insert enc D prev ks vs) st1) (fin B2 H (insert enc D prev ks vs) st2)
           (lg1 ++ hlog B1 H (insert enc D prev ks vs) st1)
           (lg2 ++ hlog B2 H (insert enc D prev ks vs) st2)
           ((r, updated M ks vs) :: hs)
  | both_call st1 st2 lg1 lg2 hs c :
      both st1 st2 lg1 lg2 hs →
      both (fin B1 H (exec enc dec c) st1) (fin B2 H (exec enc dec c) st2)
           (lg1 ++ hlog B1 H (exec enc dec c) st1) (lg2 ++ hlog B2 H (exec enc dec c) st2) hs.
End Both.
