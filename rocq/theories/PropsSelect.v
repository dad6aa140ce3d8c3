(** * The exact answers of [get] and [insert], for any list of keys
    Statements only; see PropsHist.v for the conventions.  [found], [reach] (Select.v), [parts] and [jroot]
    (Batch.v) are defined on lists of keys and pairs, with no tree and no database. *)
From Coq Require Import Strings.Byte NArith.
From stdpp Require Import prelude countable gmap sorting strings.
From Verif Require Import Model Bits Spec Logic Safe Claims Live Scenario Refuted Select Batch Scenario9.

Local Open Scope nat_scope.
Notation HB := (hash_db 2). Notation RB := (rocks_db 2).

(** C83: the answer to any request is computed from the keys of the tree, the keys asked for and the limit.
    This is the full truth behind [C05_refuted]: [found] may miss keys of the tree that are asked for. *)
Theorem C83_get_found :
  ∀ (n : nat) (B : backend n) (HB : BackendOk B) (H : list bytes → arr n)
    (V : Type) (enc : V → res bytes) (dec : bytes → res V), 0 < n → codec_ok enc dec →
  ∀ st lg r (M : gmap (arr n) V) P ks ks', live B H enc dec st lg r M → no_collision H lg →
  (NoDup P ∧ ∀ k, k ∈ P ↔ is_Some (M !! k)) → ks ≠ [] → StronglySorted arr_le ks' → ks' ≡ₚ ks → ∀ D,
  if reach (8 * n) 0 P ks' <=? D then
    ∃ lm, out B H (get dec D r ks) st = ROk lm ∧ (∀ k, k ∉ ks → lm !! k = None) ∧
      ∀ k, k ∈ ks → lm !! k = Some (if decide (k ∈ found (8 * n) 0 P ks') then M !! k else None)
  else out B H (get dec D r ks) st = RErr "Depth of merkle tree exceeded".
Proof. intros n B HB H V enc dec Hn Hc. exact (get_found Hn B H enc dec Hc). Qed.
Print Assumptions C83_get_found.
(** [K2] is in the tree and not found. *)
Example C83_get_found_case : ∃ lm, out HB toy (get idc 17 (r1 HB) [K2; KX; KA]) (s1 HB) = ROk lm ∧
  lm !! K2 = Some None ∧ M1 !! K2 = Some v2.
Proof.
  destruct (C83_get_found 2 HB _ toy _ idc idc (Nat.lt_0_succ 1) idc_ok _ _ _ _ [K2; K1] [K2; KX; KA] [K2; KX; KA]
    hash_live1 hash_live1_nc keys1 ltac:(done) ltac:(apply sorted_le; vm_compute; reflexivity) (Permutation_refl _) 17) as (lm & Ho & _ & Hk).
  exists lm. split; [exact Ho|]. split; [|vm_compute; reflexivity]. rewrite (Hk K2 (elem_of_list_here _ _)).
  vm_compute. reflexivity.
Qed.
Example C83_get_found_deep : out HB toy (get idc 0 (r1 HB) [K2; KX; KA]) (s1 HB) = RErr "Depth of merkle tree exceeded".
Proof.
  exact (C83_get_found 2 HB _ toy _ idc idc (Nat.lt_0_succ 1) idc_ok _ _ _ _ [K2; K1] [K2; KX; KA] [K2; KX; KA]
    hash_live1 hash_live1_nc keys1 ltac:(done) ltac:(apply sorted_le; vm_compute; reflexivity) (Permutation_refl _) 0).
Qed.

(** C83: the backend, the hash function, the coding of the values, the order of the request and the calls that
    led to the contents play no part. *)
Theorem C83_get_same :
  ∀ (n : nat) (V : Type), 0 < n →
  ∀ (B1 : backend n) (HB1 : BackendOk B1) (H1 : list bytes → arr n) (enc1 : V → res bytes) (dec1 : bytes → res V)
    (B2 : backend n) (HB2 : BackendOk B2) (H2 : list bytes → arr n) (enc2 : V → res bytes) (dec2 : bytes → res V)
    st1 lg1 r1 st2 lg2 r2 M ks1 ks2 D,
  codec_ok enc1 dec1 → codec_ok enc2 dec2 →
  live B1 H1 enc1 dec1 st1 lg1 r1 M → no_collision H1 lg1 → live B2 H2 enc2 dec2 st2 lg2 r2 M → no_collision H2 lg2 →
  ks1 ≡ₚ ks2 → out B1 H1 (get dec1 D r1 ks1) st1 = out B2 H2 (get dec2 D r2 ks2) st2.
Proof. intros n V Hn. exact (get_same Hn). Qed.
Print Assumptions C83_get_same.
Example C83_get_same_case : out HB toy (get idc 17 (r1 HB) [K2; KX; KA]) (s1 HB) = out RB toy (get idc 17 (r1 RB) [KX; KA; K2]) (s3 RB).
Proof.
  apply (C83_get_same 2 _ (Nat.lt_0_succ 1) HB _ toy idc idc RB _ toy idc idc _ _ _ _ _ _ _ _ _ 17 idc_ok idc_ok
    hash_live1 hash_live1_nc rocks_live1 rocks_scenario_nc (Permutation_sym (perm3 _ _ _))).
Qed.

(** C84: the result of inserting any batch into any tree (or into none).  [L]: the pairs of the old tree, [N]:
    the new pairs, both by key.  This is the full truth behind [C03_refuted]. *)
Theorem C84_insert_parts :
  ∀ (n : nat) (B : backend n) (HB : BackendOk B) (H : list bytes → arr n)
    (V : Type) (enc : V → res bytes) (dec : bytes → res V), 0 < n → codec_ok enc dec →
  ∀ st lg hs D prev (M : gmap (arr n) V) ks vs es L N,
  hist B H enc dec st lg hs ∨ whist B H enc dec st lg hs →
  no_collision H (lg ++ hlog B H (insert enc D prev ks vs) st) → prev_holds hs prev M →
  StronglySorted klt L.*1 ∧ (∀ k e, (k, e) ∈ L ↔ ∃ v, M !! k = Some v ∧ enc v = Ok e) →
  length ks = length vs → ks ≠ [] → Forall2 (λ v e, enc v = Ok e) vs es →
  StronglySorted arr_le N.*1 → N ≡ₚ zip ks es →
  if reach (8 * n) 0 L.*1 N.*1 <=? D then
    if decide (NoDup (parts H L N).*1) then
      ∃ r, jroot H (8 * n) 0 (parts H L N) = Some r ∧ out B H (insert enc D prev ks vs) st = ROk r
    else out B H (insert enc D prev ks vs) st = RErr "Attempted to insert item with duplicate keys"
  else out B H (insert enc D prev ks vs) st = RErr "Depth of merkle tree exceeded".
Proof. intros n B HB H V enc dec Hn Hc. exact (insert_parts Hn B H enc dec Hc). Qed.
Print Assumptions C84_insert_parts.
(** A batch after which [K60] cannot be read. *)
Example C84_insert_parts_case : ∃ r, jroot toy 16 0 (parts toy (zip [K1; K2; K60] [v1; v2; v5]) (zip [K3; KX; KA] [v3; v4; v5])) = Some r ∧
  out RB toy (insert idc 17 (Some (p1 RB)) [K3; KX; KA] [v3; v4; v5]) (t1 RB) = ROk r.
Proof.
  pose proof (C84_insert_parts 2 RB _ toy _ idc idc (Nat.lt_0_succ 1) idc_ok _ _ _ 17 (Some (p1 RB)) N1 [K3; KX; KA] [v3; v4; v5]
    [v3; v4; v5] (zip [K1; K2; K60] [v1; v2; v5]) (zip [K3; KX; KA] [v3; v4; v5]) (or_introl rocks_hist2) ltac:(nc) ltac:(left) pairs1
    eq_refl ltac:(done) ltac:(repeat constructor) ltac:(apply sorted_le; vm_compute; reflexivity) (Permutation_refl _)) as HC.
  destruct (Nat.leb_spec (reach (8 * 2) 0 (zip [K1; K2; K60] [v1; v2; v5]).*1 (zip [K3; KX; KA] [v3; v4; v5]).*1) 17) as [_|Hlt].
  - rewrite decide_True in HC; [exact HC|]. vm_compute (fmap _ _). nd.
  - exfalso. vm_compute in Hlt. lia.
Qed.

(** C84: with one hash function and one coding of the values, the outcome depends on the contents, the pairs and
    the limit alone. *)
Theorem C84_insert_same :
  ∀ (n : nat) (V : Type), 0 < n →
  ∀ (H : list bytes → arr n) (enc : V → res bytes)
    (B1 : backend n) (HB1 : BackendOk B1) (dec1 : bytes → res V) (B2 : backend n) (HB2 : BackendOk B2) (dec2 : bytes → res V)
    st1 lg1 hs1 prev1 ks1 vs1 st2 lg2 hs2 prev2 ks2 vs2 (M : gmap (arr n) V) D,
  codec_ok enc dec1 → codec_ok enc dec2 →
  hist B1 H enc dec1 st1 lg1 hs1 ∨ whist B1 H enc dec1 st1 lg1 hs1 →
  hist B2 H enc dec2 st2 lg2 hs2 ∨ whist B2 H enc dec2 st2 lg2 hs2 →
  no_collision H (lg1 ++ hlog B1 H (insert enc D prev1 ks1 vs1) st1) →
  no_collision H (lg2 ++ hlog B2 H (insert enc D prev2 ks2 vs2) st2) →
  prev_holds hs1 prev1 M → prev_holds hs2 prev2 M →
  length ks1 = length vs1 → length ks2 = length vs2 → zip ks1 vs1 ≡ₚ zip ks2 vs2 →
  (∀ v, v ∈ vs1 → ∃ e, enc v = Ok e) →
  out B1 H (insert enc D prev1 ks1 vs1) st1 = out B2 H (insert enc D prev2 ks2 vs2) st2.
Proof. intros n V Hn. exact (insert_same Hn). Qed.
Print Assumptions C84_insert_same.
Example C84_insert_same_case :
  out HB toy (insert idc 17 (Some (r1 HB)) [K3; KX; KA] [v3; v4; v5]) (s1 HB) =
  out RB toy (insert idc 17 (Some (r1 RB)) [KX; KA; K3] [v4; v5; v3]) (s3 RB).
Proof.
  refine (C84_insert_same 2 _ (Nat.lt_0_succ 1) toy idc HB _ idc RB _ idc (s1 HB) (lg1 HB) (hs1 HB) _ [K3; KX; KA] [v3; v4; v5]
    (s3 RB) (lg3 RB) (hs2 RB) _ [KX; KA; K3] [v4; v5; v3] M1 17
    idc_ok idc_ok (or_introl _) (or_introl rocks_scenario) _ _ _ _ eq_refl eq_refl (Permutation_sym (perm3 (K3, v3) (KX, v4) (KA, v5))) _).
  - apply first_hist. vm_compute. reflexivity.
  - nc.
  - nc.
  - left.
  - right. left.
  - intros v _. by exists v.
Qed.
