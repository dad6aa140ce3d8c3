(** * Properties of proofs, sizes, shapes, bits, hashing and serialization
    Statements only; see PropsHist.v for the conventions.  The [Example]s use
    the histories of Scenario.v. *)
From Coq Require Import Strings.Byte NArith.
From stdpp Require Import prelude countable gmap sorting strings.
From Verif Require Import Model Bits Spec Util Logic Safe Claims Live Paths Growth Depth Shape Codec CodecProofs Bytes
  Struct Bitwise Fail Scenario.

Local Open Scope nat_scope.

Notation HB := (hash_db 2). Notation RB := (rocks_db 2).
Ltac nc := apply no_collision_b_sound; vm_compute; reflexivity.

(** C15, for an arbitrary root, genuine or not: two proofs whose directions are the same from the root down
    (or one a continuation of the other) prove the same pair.  Without the condition on the directions the
    statement is false: [C15_refuted] (PropsRefuted.v). *)
Theorem C15_same_path_partial :
  ∀ (n : nat) (H : list bytes → arr n) (V : Type) (enc : V → res bytes) (dec : bytes → res V), codec_ok enc dec →
  ∀ root k1 v1 p1 k2 v2 p2 (B1 B2 : backend n) (st1 : b_st B1) (st2 : b_st B2),
  no_collision H (hlog B1 H (verify_inclusion_proof enc root k1 v1 p1) st1 ++
                  hlog B2 H (verify_inclusion_proof enc root k2 v2 p2) st2) →
  out B1 H (verify_inclusion_proof enc root k1 v1 p1) st1 = ROk tt →
  out B2 H (verify_inclusion_proof enc root k2 v2 p2) st2 = ROk tt →
  (drop 2 p1).*2 `suffix_of` (drop 2 p2).*2 →
  k1 = k2 ∧ v1 = v2 ∧ p1.*1 = p2.*1 ∧ drop 2 p1 = drop 2 p2.
Proof.  intros n H V enc dec Hc. exact (same_path H enc dec Hc). Qed.
Print Assumptions C15_same_path_partial.
Example C15_case : ∃ p, out HB toy (generate_inclusion_proof 17 (r2 HB) K3) (s3 HB) = ROk p ∧
  ∀ v, out HB toy (verify_inclusion_proof idc (r2 HB) K3 v p) (s3 HB) = ROk tt →
       no_collision toy (hlog HB toy (verify_inclusion_proof idc (r2 HB) K3 v3 p) (s3 HB) ++
                         hlog HB toy (verify_inclusion_proof idc (r2 HB) K3 v p) (s3 HB)) → v = v3.
Proof.
  eexists. split; [vm_compute; reflexivity|]. intros v Hv Hnc.
  symmetry. refine (proj1 (proj2 (C15_same_path_partial 2 toy _ idc idc idc_ok (r2 HB) K3 v3 _ K3 v _ HB HB _ _ Hnc _ Hv _))).
  - vm_compute. reflexivity.
  - reflexivity.
Qed.

(** C48 *)
Theorem C48_proof_unique :
  ∀ (n : nat) (B : backend n) (HB : BackendOk B) (H : list bytes → arr n)
    (V : Type) (enc : V → res bytes) (dec : bytes → res V), 0 < n → codec_ok enc dec →
  ∀ st lg hs r M D k v p (B' : backend n) (st' : b_st B'),
  hist B H enc dec st lg hs → (r, M) ∈ hs → 8 * n + 1 ≤ D →
  no_collision H (lg ++ hlog B' H (verify_inclusion_proof enc r k v p) st') →
  out B' H (verify_inclusion_proof enc r k v p) st' = ROk tt →
  ∃ p', out B H (generate_inclusion_proof D r k) st = ROk p' ∧ p.*1 = p'.*1 ∧ drop 2 p = drop 2 p'.
Proof. intros n B HB H V enc dec Hn Hc. exact (proof_unique Hn B H enc dec Hc). Qed.
Print Assumptions C48_proof_unique.
Example C48_case p : no_collision toy (lg3 HB ++ hlog RB toy (verify_inclusion_proof idc (r2 HB) K3 v3 p) (b_init RB)) →
  out RB toy (verify_inclusion_proof idc (r2 HB) K3 v3 p) (b_init RB) = ROk tt → length p = 5.
Proof.
  intros Hnc Ho.
  destruct (C48_proof_unique 2 HB _ toy _ idc idc ltac:(lia) idc_ok (s3 HB) (lg3 HB) (hs2 HB) (r2 HB) M2 17 K3 v3 p RB (b_init RB)
    hash_scenario ltac:(left) ltac:(lia) Hnc Ho) as (p' & Hp' & Hl & _).
  apply (f_equal length) in Hl. rewrite !fmap_length in Hl. rewrite Hl.
  assert (Hd : match out HB toy (generate_inclusion_proof 17 (r2 HB) K3) (s3 HB) with ROk q => length q | _ => 0 end = 5)
    by (vm_compute; reflexivity).
  rewrite Hp' in Hd. exact Hd.
Qed.

(** C25: what is inserted under depth limit [D] can be read under a larger limit: the number of keys for a
    new tree, otherwise [D] plus the number of keys plus one.  Under the same limit it is false:
    [C25_refuted] (PropsRefuted.v). *)
Theorem C25_insert_readable_partial :
  ∀ (n : nat) (B : backend n) (HB : BackendOk B) (H : list bytes → arr n)
    (V : Type) (enc : V → res bytes) (dec : bytes → res V), 0 < n → codec_ok enc dec →
  ∀ st lg hs D prev M ks vs r D',
  hist B H enc dec st lg hs → no_collision H (lg ++ hlog B H (insert enc D prev ks vs) st) →
  prev_holds hs prev M → mild M ks → out B H (insert enc D prev ks vs) st = ROk r →
  readable_depth D prev ks ≤ D' + 1 →
  let st' := fin B H (insert enc D prev ks vs) st in
  (∀ k, k ∈ ks → out B H (get_one dec (D' + 1) r k) st' = ROk (updated M ks vs !! k)) ∧
  (∀ ks', (∀ k, k ∈ ks' → k ∈ ks) → ∃ lm, out B H (get dec D' r ks') st' = ROk lm ∧
     ∀ k, k ∈ ks' → lm !! k = Some (updated M ks vs !! k)).
Proof. intros n B HB H V enc dec Hn Hc. exact (insert_readable Hn B H enc dec Hc). Qed.
Print Assumptions C25_insert_readable_partial.
Example C25_case : out HB toy (get_one idc 2 (r1 HB) K2) (s1 HB) = ROk (Some v2).
Proof.
  refine (proj1 (C25_insert_readable_partial 2 HB _ toy _ idc idc ltac:(lia) idc_ok (b_init HB) [] [] 17 None ∅ [K2; K1] [v2; v1] (r1 HB) 1 _ _ _ _ _ _) K2 _).
  - apply hist_init.
  - nc.
  - done.
  - left. apply benign_empty.
  - vm_compute. reflexivity.
  - vm_compute. lia.
  - left.
Qed.

(** C25: [get_one] needs exactly one level more than [get]. *)
Theorem C25_limits_of_reads :
  ∀ (n : nat) (B : backend n) (HB : BackendOk B) (H : list bytes → arr n)
    (V : Type) (enc : V → res bytes) (dec : bytes → res V), 0 < n → codec_ok enc dec →
  ∀ st lg hs r M D k,
  hist B H enc dec st lg hs → no_collision H lg → (r, M) ∈ hs →
  (∀ ks lm, mild M ks → k ∈ ks → out B H (get dec D r ks) st = ROk lm →
     out B H (get_one dec (D + 1) r k) st = ROk (M !! k)) ∧
  (∀ o, out B H (get_one dec D r k) st = ROk o → ∃ lm, out B H (get dec D r [k]) st = ROk lm).
Proof. intros n B HB H V enc dec Hn Hc. exact (reads_limits Hn B H enc dec Hc). Qed.
Print Assumptions C25_limits_of_reads.
Example C25_reads_case : out HB toy (get_one idc 4 (r2 HB) K3) (s3 HB) = ROk (M2 !! K3).
Proof.
  destruct (is_ok_true (out HB toy (get idc 3 (r2 HB) [K3; K1]) (s3 HB))) as [lm E]; [vm_compute; reflexivity|].
  refine (proj1 (C25_limits_of_reads 2 HB _ toy _ idc idc ltac:(lia) idc_ok _ _ _ (r2 HB) M2 3 K3 hash_scenario hash_scenario_nc ltac:(left)) [K3; K1] lm _ _ E).
  - apply hazard_b_mild. vm_compute. reflexivity.
  - left.
Qed.

(** C27; [tree_ok] is defined in Spec.v. *)
Theorem C27_shape :
  ∀ (n : nat) (B : backend n) (HB : BackendOk B) (H : list bytes → arr n)
    (V : Type) (enc : V → res bytes) (dec : bytes → res V), 0 < n → codec_ok enc dec →
  ∀ st lg hs r M,
  hist B H enc dec st lg hs → no_collision H lg → (r, M) ∈ hs → tree_ok (b_vis B st) r M.
Proof. intros n B HB H V enc dec Hn Hc. exact (hist_tree_ok Hn B H enc dec Hc). Qed.
Print Assumptions C27_shape.
Example C27_case : tree_ok (b_vis RB (s3 RB)) (r2 RB) M2 :=
  C27_shape 2 RB _ toy _ idc idc ltac:(lia) idc_ok _ _ _ _ _ rocks_scenario rocks_scenario_nc ltac:(left).

(** C27, also for the live roots of histories with removals. *)
Theorem C27_shape_after_removals :
  ∀ (n : nat) (B : backend n) (HB : BackendOk B) (H : list bytes → arr n)
    (V : Type) (enc : V → res bytes) (dec : bytes → res V), 0 < n → codec_ok enc dec →
  ∀ st lg hs r M,
  rhist B H enc dec st lg hs → no_collision H lg → (r, M) ∈ hs → tree_ok (b_vis B st) r M.
Proof. intros n B HB H V enc dec Hn Hc. exact (rhist_tree_ok Hn B H enc dec Hc). Qed.
Print Assumptions C27_shape_after_removals.
Example C27_removals_case : tree_ok (b_vis RB (q4 RB)) (r4 RB) M4 :=
  C27_shape_after_removals 2 RB _ toy _ idc idc ltac:(lia) idc_ok _ _ _ _ _ rocks_scenario2 rocks_scenario2_nc ltac:(left).

(** C28, in every state an insertion (any arguments, any outcome) goes through. *)
Theorem C28_insert_keeps :
  ∀ (n : nat) (B : backend n) (HB : BackendOk B) (H : list bytes → arr n)
    (V : Type) (enc : V → res bytes) (dec : bytes → res V), 0 < n → codec_ok enc dec →
  ∀ st lg hs D prev ks vs st', hist B H enc dec st lg hs →
  no_collision H (lg ++ hlog B H (insert enc D prev ks vs) st) →
  st' ∈ states B H (insert enc D prev ks vs) st →
  ∀ l nd, b_vis B st !! l = Some nd → ∃ rf, b_vis B st' !! l = Some (Node rf (var nd)).
Proof. intros n B HB H V enc dec Hn Hc. exact (insert_keeps Hn B H enc dec Hc). Qed.
Print Assumptions C28_insert_keeps.
Example C28_case : ∀ l nd, b_vis HB (s1 HB) !! l = Some nd → ∃ rf, b_vis HB (s2 HB) !! l = Some (Node rf (var nd)).
Proof.
  apply (C28_insert_keeps 2 HB _ toy _ idc idc ltac:(lia) idc_ok (s1 HB) (lg1 HB) (hs1 HB) 17 (Some (r1 HB)) [K3; K4] [v3; v4]).
  - unfold s1, lg1, hs1, M1. eapply hist_insert with (prev := None);
      [apply hist_init|done|left; apply benign_empty|vm_compute; reflexivity].
  - nc.
  - apply run_in_states.
Qed.

(** C28: at most one new node per entry of the inclusion proofs of the keys inserted (data, leaf and one branch
    per level); for one key this is the path of that key. *)
Theorem C28_insert_size :
  ∀ (n : nat) (B : backend n) (HB : BackendOk B) (H : list bytes → arr n)
    (V : Type) (enc : V → res bytes) (dec : bytes → res V), 0 < n → codec_ok enc dec →
  ∀ st lg hs D prev M ks vs r D' ps, hist B H enc dec st lg hs →
  no_collision H (lg ++ hlog B H (insert enc D prev ks vs) st) →
  prev_holds hs prev M → benign M ks → out B H (insert enc D prev ks vs) st = ROk r →
  let st' := fin B H (insert enc D prev ks vs) st in
  Forall2 (λ k p, out B H (generate_inclusion_proof D' r k) st' = ROk p) ks ps →
  size (b_vis B st') ≤ size (b_vis B (b_flush B st)) + sum_list_with length ps.
Proof. intros n B HB H V enc dec Hn Hc. exact (insert_size Hn B H enc dec Hc). Qed.
Print Assumptions C28_insert_size.
Example C28_size_case : size (b_vis HB (s2 HB)) ≤ size (b_vis HB (s1 HB)) + (5 + 3).
Proof.
  destruct (is_ok_true (out HB toy (generate_inclusion_proof 17 (r2 HB) K3) (s2 HB))) as [p3 E3]; [vm_compute; reflexivity|].
  destruct (is_ok_true (out HB toy (generate_inclusion_proof 17 (r2 HB) K4) (s2 HB))) as [p4 E4]; [vm_compute; reflexivity|].
  assert (L3 : match out HB toy (generate_inclusion_proof 17 (r2 HB) K3) (s2 HB) with ROk p => length p | _ => 0 end = 5)
    by (vm_compute; reflexivity).
  assert (L4 : match out HB toy (generate_inclusion_proof 17 (r2 HB) K4) (s2 HB) with ROk p => length p | _ => 0 end = 3)
    by (vm_compute; reflexivity).
  rewrite E3 in L3. rewrite E4 in L4. rewrite <- L3, <- L4.
  replace (length p3 + length p4) with (sum_list_with length [p3; p4]) by (cbn; lia).
  apply (C28_insert_size 2 HB _ toy _ idc idc ltac:(lia) idc_ok (s1 HB) (lg1 HB) (hs1 HB) 17 (Some (r1 HB)) M1 [K3; K4] [v3; v4] (r2 HB) 17 [p3; p4]).
  - unfold s1, lg1, hs1, M1. eapply hist_insert with (prev := None);
      [apply hist_init|done|left; apply benign_empty|vm_compute; reflexivity].
  - nc.
  - left.
  - apply hazard_b_sound. vm_compute. reflexivity.
  - vm_compute. reflexivity.
  - repeat constructor; assumption.
Qed.

(** C33; [key_bit] is defined in Bitwise.v. *)
Theorem C33_choose_zero :
  ∀ (n : nat) (k : arr n) (i : nat),
  choose_zero k i = if i <? 8 * n then Ok (negb (key_bit k i)) else Err "Designated bit exceeds key length" .
Proof.  intros n k i. exact (choose_zero_bits k i). Qed.
Print Assumptions C33_choose_zero.
Example C33_case : choose_zero K2 9 = Ok false ∧ choose_zero K2 8 = Ok true ∧ ∃ er, choose_zero K2 16 = Err er.
Proof. split_and!; [vm_compute; reflexivity..|]. eexists. vm_compute. reflexivity. Qed.

(** C33 *)
Theorem C33_fast_log_2 :
  ∀ b : byte, b ≠ x00 → N.of_nat (fast_log_2 (Byte.to_N b)) = N.log2 (Byte.to_N b).
Proof.  intros b. exact (fast_log_2_spec b). Qed.
Print Assumptions C33_fast_log_2.
Example C33_log_case : fast_log_2 (Byte.to_N x41) = 6.
Proof. vm_compute. reflexivity. Qed.

(** C33; [agree m]: the first [m] bits are the same. *)
Theorem C33_calc_min_split_index :
  ∀ (n : nat) (ks : list (arr n)) (bk : arr n), 0 < n → StronglySorted arr_le ks → ks ≠ [] →
  ∃ m, calc_min_split_index ks bk = Ok m ∧ m < 8 * n ∧
    ((∀ k, k ∈ ks → k = bk) ∧ m = 8 * n - 1 ∨
     (∀ k, k ∈ ks → agree m k bk) ∧ ∃ k, k ∈ ks ∧ key_bit k m ≠ key_bit bk m).
Proof.  intros n ks bk. exact (calc_min_bits ks bk). Qed.
Print Assumptions C33_calc_min_split_index.
Example C33_min_case : calc_min_split_index [K1; K2; K3] K2 = Ok 9.
Proof. vm_compute. reflexivity. Qed.

(** C34 *)
Theorem C34_split_pairs :
  ∀ (n : nat) (ks : list (arr n)) (s : nat), s < 8 * n → StronglySorted arr_le ks →
  (∀ a b, a ∈ ks → b ∈ ks → agree s a b) →
  ∃ zs os, split_pairs ks s = Ok (zs, os) ∧ ks = zs ++ os ∧
    (∀ k, k ∈ zs → key_bit k s = false) ∧ (∀ k, k ∈ os → key_bit k s = true).
Proof.  intros n ks s. exact (split_pairs_bits ks s). Qed.
Print Assumptions C34_split_pairs.
Example C34_case : split_pairs [K1; K2; K3] 9 = Ok ([K1], [K2; K3]).
Proof. vm_compute. reflexivity. Qed.

(** C35, what [check_descendants] really selects: the keys below the branch (as it should), and those leaving
    the branch key at a bit [q] in the byte of the split index, if the position of [m] in its byte is not before
    that of the split index. *)
Theorem C35_check_descendants_partial :
  ∀ (n : nat) (ks : list (arr n)) (bk : arr n) (s m : nat), 0 < n → StronglySorted arr_le ks → ks ≠ [] → s < 8 * n →
  calc_min_split_index ks bk = Ok m →
  ∃ ds, check_descendants ks s bk m = Ok ds ∧ ds `sublist_of` ks ∧
    ∀ k, k ∈ ds ↔ k ∈ ks ∧ (agree s k bk ∨ ∃ q, leaves_at q k bk ∧ q < s ∧ s ≤ 8 * (q / 8) + m mod 8).
Proof.  intros n ks bk s m. exact (check_descendants_bits ks bk s m). Qed.
Print Assumptions C35_check_descendants_partial.
Example C35_exact_case : check_descendants [K1; K2; K3] 15 K2 9 = Ok [K2; K3].
Proof. vm_compute. reflexivity. Qed.

(** C35 holds for single keys, hence for [get_one] and [generate_inclusion_proof]. *)
Theorem C35_single_key :
  ∀ (n : nat) (k bk : arr n) (s m : nat), 0 < n → s < 8 * n → calc_min_split_index [k] bk = Ok m →
  ∃ ds, check_descendants [k] s bk m = Ok ds ∧ (ds = [k] ∧ agree s k bk ∨ ds = [] ∧ ¬ agree s k bk).
Proof.  intros n k bk s m. exact (check_descendants_one k bk s m). Qed.
Print Assumptions C35_single_key.
Example C35_single_case : check_descendants [K1] 15 K2 9 = Ok [] ∧ check_descendants [K3] 15 K2 15 = Ok [K3].
Proof. split; vm_compute; reflexivity. Qed.

(** C35 fails for lists: with keys 0080 and 0100, branch key 0000 and split index 10, the key 0080 is reported
    as a descendant although its bit 8 differs. *)
Theorem C35_refuted :
  ∃ (ks : list (arr 2)) (bk : arr 2) (s m : nat) (ds : list (arr 2)) (k : arr 2),
  StronglySorted arr_le ks ∧ ks ≠ [] ∧ s < 16 ∧ calc_min_split_index ks bk = Ok m ∧ m < s ∧
  check_descendants ks s bk m = Ok ds ∧ k ∈ ds ∧ ¬ agree s k bk.
Proof.  exists [K x00 x80; K x01 x00], K1, 10, 7, [K x00 x80], (K x00 x80).
  split; [repeat constructor|]. split; [discriminate|]. split; [lia|].
  split; [vm_compute; reflexivity|]. split; [lia|]. split; [vm_compute; reflexivity|]. split; [left|].
  intros Ha. specialize (Ha 8 ltac:(lia)). vm_compute in Ha. discriminate Ha. Qed.
Print Assumptions C35_refuted.

(** C36: of everything a tree hashes, no two different inputs (lists of chunks, which determine the node) are
    the same byte string. *)
Theorem C36_inputs_distinct :
  ∀ (n : nat) (B : backend n) (HB : BackendOk B) (H : list bytes → arr n)
    (V : Type) (enc : V → res bytes) (dec : bytes → res V),
  ∀ st lg hs, hist B H enc dec st lg hs ∨ rhist B H enc dec st lg hs →
  ∀ x y, x ∈ lg → y ∈ lg → concat x = concat y → x = y.
Proof. intros n B HB H V enc dec. intros st lg hs [Hh|Hh]; [exact (strings_inj lg (hist_strings B H enc dec st lg hs Hh))|exact (strings_inj lg (rhist_strings B H enc dec st lg hs Hh))]. Qed.
Print Assumptions C36_inputs_distinct.
Example C36_case : length (lg4 HB) = 17.
Proof. vm_compute. reflexivity. Qed.

(** C36: for a hash function [h] on byte strings, the hypothesis [no_collision] of the other theorems only asks
    for no collision of [h] itself. *)
Theorem C36_collision_is_of_the_hash :
  ∀ (n : nat) (B : backend n) (HB : BackendOk B) (h : bytes → arr n)
    (V : Type) (enc : V → res bytes) (dec : bytes → res V) st lg hs,
  hist B (h ∘ @concat byte) enc dec st lg hs ∨ rhist B (h ∘ @concat byte) enc dec st lg hs →
  (∀ x y, x ∈ @concat byte <$> lg → y ∈ @concat byte <$> lg → h x = h y → x = y) →
  no_collision (h ∘ @concat byte) lg.
Proof.  intros n B HB h V enc dec st lg hs [Hh|Hh]; [exact (chunks_collision h lg (hist_strings B _ enc dec st lg hs Hh))|exact (chunks_collision h lg (rhist_strings B _ enc dec st lg hs Hh))]. Qed.
Print Assumptions C36_collision_is_of_the_hash.

(** C36: on any database and with any arguments, a call only hashes the three kinds of strings. *)
Theorem C36_every_call_hashes_nodes :
  ∀ (n : nat) (B : backend n) (HB : BackendOk B) (H : list bytes → arr n)
    (V : Type) (enc : V → res bytes) (dec : bytes → res V),
  ∀ (c : call n V) st x, x ∈ hlog B H (exec enc dec c) st →
  (∃ (k : arr n) (e : bytes), x = data_in k e) ∨ (∃ k d : arr n, x = leaf_in k d) ∨ (∃ z o : arr n, x = branch_in z o).
Proof. intros n B HB H V enc dec. intros c st. exact (proj1 (Forall_forall _ _) (strok_log B H _ _ st (λ R, exec_str enc dec R c))). Qed.
Print Assumptions C36_every_call_hashes_nodes.

(** C37: [resize n x00] truncates or pads with zeros to length [n].  Missing: the BLAKE2b adaptor, see the next
    theorem; the hash functions, Keccak and SHA-3: [C37_hashers], [C37_digests]. *)
Theorem C37_adaptors_partial :
  ∀ (n : nat) (v : bytes),
  (length v = 8 → finalize_u64 n v = Ok (resize n x00 v)) ∧
  (length v = 32 → finalize_sha256 n v = Ok (resize n x00 v)) ∧
  finalize_digest n v = Ok (resize n x00 v).
Proof.  intros n v. exact (conj (finalize_u64_spec n v) (conj (finalize_sha256_spec n v) (finalize_digest_spec n v))). Qed.
Print Assumptions C37_adaptors_partial.
Example C37_case : finalize_u64 3 [x01; x02; x03; x04; x05; x06; x07; x08] = Ok [x01; x02; x03] ∧
  finalize_u64 10 [x01; x02; x03; x04; x05; x06; x07; x08] = Ok [x01; x02; x03; x04; x05; x06; x07; x08; x00; x00].
Proof. split; vm_compute; reflexivity. Qed.

(** C37: the BLAKE2b adaptor panics for keys longer than 64 bytes. *)
Theorem C37_blake2b_refuted :
  ∀ (n : nat) (digest : nat → bytes → bytes) (data : bytes),
  (∀ n d, 1 ≤ n ≤ 64 → length (digest n d) = n) →
  (1 ≤ n ≤ 64 → blake2b n digest data = Ok (digest n data)) ∧ (¬ (1 ≤ n ≤ 64) → blake2b n digest data = Pan).
Proof.  exact blake2b_spec. Qed.
Print Assumptions C37_blake2b_refuted.

(** C38; [small]: [n], the numbers and the length of the value are below 2^64, as they are in Rust. *)
Theorem C38_node_roundtrip :
  ∀ (n : nat) (nd : node n) (rest : bytes), small nd → dec_node n (enc_node nd ++ rest) = Ok nd.
Proof.  intros n nd rest. exact (dec_node_enc nd rest). Qed.
Print Assumptions C38_node_roundtrip.
Example C38_case : small (Node 3 (VBranch 5 K1 K2 9 K3)) ∧
  enc_node (Node 3 (VLeaf K1 K2)) = [x03; x00; x00; x00; x00; x00; x00; x00; x01; x00; x00; x00;
    x02; x00; x00; x00; x00; x00; x00; x00; x00; x00; x02; x00; x00; x00; x00; x00; x00; x00; x00; x40].
Proof. split; [repeat split; vm_compute; reflexivity|vm_compute; reflexivity]. Qed.

(** C38: different nodes have different bytes. *)
Theorem C38_node_encoding_injective :
  ∀ (n : nat) (nd nd' : node n) (rest rest' : bytes), small nd → small nd' →
  enc_node nd ++ rest = enc_node nd' ++ rest' → nd = nd'.
Proof.  intros n nd nd' rest rest'. exact (enc_node_inj nd nd' rest rest'). Qed.
Print Assumptions C38_node_encoding_injective.

(** C38: decoding arbitrary bytes returns a node or an error. *)
Theorem C38_decode_total :
  ∀ (n : nat) (b : bytes), dec_node n b ≠ Pan.
Proof.  exact dec_node_no_pan. Qed.
Print Assumptions C38_decode_total.

(** C39 is false for every length: a serialized sequence of any length decodes, truncated or zero-padded. *)
Theorem C39_any_length :
  ∀ (n : nat) (l : bytes), u64 (length l) → dec_arr n (enc_seq l) = Ok (mkarr n l, []).
Proof.  intros n l Hl. pose proof (dec_arr_any n l [] Hl) as Hd. rewrite app_nil_r in Hd. exact Hd. Qed.
Print Assumptions C39_any_length.

(** C39, concretely: a one-byte and a three-byte sequence both decode to the two-byte key 0100. *)
Theorem C39_refuted :
  ∃ l l' : bytes, length l ≠ 2 ∧ l ≠ l' ∧ enc_seq l ≠ enc_seq l' ∧ dec_arr 2 (enc_seq l) = Ok (K x01 x00, []) ∧
  dec_arr 2 (enc_seq l') = Ok (K x01 x00, []).
Proof.  exists [x01], [x01; x00; x03]. split; [discriminate|]. split; [discriminate|]. split; [vm_compute; discriminate|]. split.
  - rewrite (C39_any_length 2 [x01]) by (vm_compute; reflexivity). f_equal. f_equal. apply arr_inj. vm_compute. reflexivity.
  - rewrite (C39_any_length 2 [x01; x00; x03]) by (vm_compute; reflexivity). f_equal. f_equal. apply arr_inj. vm_compute. reflexivity. Qed.
Print Assumptions C39_refuted.

(** C39, what does hold: a sequence announcing more bytes than there are is an error. *)
Theorem C39_truncated_partial :
  ∀ (n : nat) (m : nat) (l : bytes), u64 m → length l < m → ∃ er, dec_arr n (enc_u64 m ++ l) = Err er.
Proof.  intros n m l. exact (dec_arr_short n m l). Qed.
Print Assumptions C39_truncated_partial.
Example C39_case : u64 3 ∧ length [x01; x02] < 3.
Proof. split; [vm_compute; reflexivity|cbn; lia]. Qed.

(** C45 on RocksDB: a failing insertion (any arguments) commits nothing, so that it leaves no trace once the
    process restarts.  Without a restart, or on the in-memory backends, it does: [C45_refuted]
    (PropsRefuted.v). *)
Theorem C45_rocks_restart_partial :
  ∀ (n : nat) (H : list bytes → arr n) (V : Type) (enc : V → res bytes) (dec : bytes → res V),
  0 < n → codec_ok enc dec → ∀ st lg hs D prev ks vs er,
  rhist (rocks_db n) H enc dec st lg hs ∨ hist (rocks_db n) H enc dec st lg hs →
  no_collision H (lg ++ hlog (rocks_db n) H (insert enc D prev ks vs) st) →
  out (rocks_db n) H (insert enc D prev ks vs) st = RErr er →
  b_vis (rocks_db n) (fin (rocks_db n) H (insert enc D prev ks vs) st) = b_vis (rocks_db n) st ∧
  b_drop (rocks_db n) (fin (rocks_db n) H (insert enc D prev ks vs) st) = b_drop (rocks_db n) st.
Proof.  intros n H V enc dec Hn Hc. exact (rocks_failing_insert Hn H enc dec Hc). Qed.
Print Assumptions C45_rocks_restart_partial.
Example C45_case : ∃ er, out RB toy (insert idc 17 (Some (r2 RB)) [K1; K1] [v3; v4]) (s2 RB) = RErr er ∧
  length (pending (fin RB toy (insert idc 17 (Some (r2 RB)) [K1; K1] [v3; v4]) (s2 RB))) = 6.
Proof. eexists. split; vm_compute; reflexivity. Qed.

(** C45 on every backend: a failing insertion only makes [insert] calls to the database. *)
Theorem C45_only_queued_partial :
  ∀ (n : nat) (B : backend n) (HB : BackendOk B) (H : list bytes → arr n)
    (V : Type) (enc : V → res bytes) (dec : bytes → res V), 0 < n → codec_ok enc dec →
  ∀ st lg hs D prev ks vs er,
  rhist B H enc dec st lg hs ∨ hist B H enc dec st lg hs →
  no_collision H (lg ++ hlog B H (insert enc D prev ks vs) st) →
  out B H (insert enc D prev ks vs) st = RErr er →
  ∃ q : list (arr n * node n), fin B H (insert enc D prev ks vs) st = foldl (λ s p, b_put B s p.1 p.2) st q.
Proof. intros n B HB H V enc dec Hn Hc. exact (failing_insert_queued Hn B H enc dec Hc). Qed.
Print Assumptions C45_only_queued_partial.

(** C45 for malformed arguments: no effect at all. *)
Theorem C45_rejected :
  ∀ (n : nat) (B : backend n) (H : list bytes → arr n) (V : Type) (enc : V → res bytes) st D prev ks (vs : list V),
  length ks ≠ length vs ∨ ks = [] →
  fin B H (insert enc D prev ks vs) st = st ∧ ∃ er, out B H (insert enc D prev ks vs) st = RErr er.
Proof.  intros n B H V enc. exact (rejected_insert B H enc). Qed.
Print Assumptions C45_rejected.

(** C49: [ser] serializes a database, [brun] executes over bytes (Codec.v); [small_st]: the numbers stored are
    below 2^64. *)
Theorem C49_bytes :
  ∀ (n : nat) (H : list bytes → arr n) (A : Type) (p : prog n A) (s : rocks_st n),
  (∀ s', s' ∈ states (rocks_db n) H p s → small_st s') →
  brun H p (ser s) = (out (rocks_db n) H p s, ser (fin (rocks_db n) H p s)) ∧
  bstates H p (ser s) = ser <$> states (rocks_db n) H p s.
Proof.  intros n H A p s. exact (brun_run H p s). Qed.
Print Assumptions C49_bytes.
Example C49_case : brun toy (i2 RB) (ser (s1 RB)) = (ROk (r2 RB), ser (s2 RB)).
Proof.
  assert (Hf : forallb small_st_b (states RB toy (i2 RB) (s1 RB)) = true) by (vm_compute; reflexivity).
  rewrite forallb_forall in Hf.
  assert (Hs : ∀ s', s' ∈ states RB toy (i2 RB) (s1 RB) → small_st s').
  { intros s' Hin. apply small_st_b_sound; [vm_compute; reflexivity|]. apply Hf. by apply elem_of_list_In. }
  rewrite (proj1 (C49_bytes 2 toy _ (i2 RB) (s1 RB) Hs)).
  assert (Ho : out RB toy (i2 RB) (s1 RB) = ROk (r2 RB)) by (vm_compute; reflexivity).
  rewrite Ho. reflexivity.
Qed.

(** C49: new databases and restarts correspond, and the bytes determine the contents. *)
Theorem C49_bytes_states :
  ∀ n : nat,
  ser (b_init (rocks_db n)) = binit ∧
  (∀ s : rocks_st n, ser (b_drop (rocks_db n) s) = bdrop (ser s)) ∧
  (∀ s s' : rocks_st n, small_st s → small_st s' → ser s = ser s' → s = s').
Proof.  intros n. exact (conj ser_init (conj ser_drop ser_inj)). Qed.
Print Assumptions C49_bytes_states.

(** C50: whatever the database, the arguments and the hash function.  [refs_le R]: all reference counts are at
    most [R]; [writes]: the number of nodes written. *)
Theorem C50_reference_counts_grow_slowly :
  ∀ (n : nat) (B : backend n) (HB : BackendOk B) (H : list bytes → arr n)
    (V : Type) (enc : V → res bytes) (dec : bytes → res V) (R : nat) (st : b_st B), refs_le B R st →
  (∀ (c : call n V) st', st' ∈ fin B H (exec enc dec c) st :: states B H (exec enc dec c) st →
     refs_le B (R + writes B H (exec enc dec c) st) st') ∧
  (∀ root st', st' ∈ fin B H (remove_prog B st root) st :: states B H (remove_prog B st root) st →
     refs_le B (R + writes B H (remove_prog B st root) st) st').
Proof.  intros n B HB H V enc dec R st Hr.
  exact (conj (λ c, proj1 (Forall_forall _ _) (exec_refs B H enc dec c R st Hr))
              (λ root, proj1 (Forall_forall _ _) (remove_refs B H root R st Hr))). Qed.
Print Assumptions C50_reference_counts_grow_slowly.
Example C50_case : refs_le HB 0 (b_init HB) ∧ writes HB toy i1 (b_init HB) = 5.
Proof. split; [apply refs_le_init|vm_compute; reflexivity]. Qed.
