(** * Properties of common ways to use the tree
    Statements only; see PropsHist.v for the conventions. *)
From Coq Require Import Strings.Byte NArith.
From stdpp Require Import prelude countable gmap sorting strings.
From Verif Require Import Model Bits Spec Logic Safe Claims Live Weak Usage Scenario Scenario3 Refuted.

Local Open Scope nat_scope.

Notation HB := (hash_db 2). Notation RB := (rocks_db 2).
Ltac nc := apply no_collision_b_sound; vm_compute; reflexivity.
Ltac nd := repeat (apply NoDup_cons; split; [intros Hin; repeat (apply elem_of_cons in Hin as [Hin|Hin]; [discriminate Hin|]); by apply elem_of_nil in Hin|]); apply NoDup_nil_2.
Ltac few := right; left; apply one_new_b_sound; vm_compute; reflexivity.
Ltac two := eexists _, _; intros k Hk; rewrite !elem_of_cons in Hk; destruct Hk as [->|[->|Hk]]; [by left|by right|by apply elem_of_nil in Hk].

(** C54: no condition on the shape of the keys, only that at most one key asked for is absent, or that at most
    two different keys are asked for (or that keys have one byte). *)
Theorem C54_few_absent :
  ∀ (n : nat) (B : backend n) (HB : BackendOk B) (H : list bytes → arr n)
    (V : Type) (enc : V → res bytes) (dec : bytes → res V), 0 < n → codec_ok enc dec →
  ∀ st lg hs r M D ks,
  whist B H enc dec st lg hs → no_collision H lg → (r, M) ∈ hs →
  n = 1 ∨ (∀ x y, x ∈ ks → y ∈ ks → M !! x = None → M !! y = None → x = y) ∨
    (∃ u v, ∀ k, k ∈ ks → k = u ∨ k = v) → 8 * n ≤ D →
  ∃ lm, out B H (get dec D r ks) st = ROk lm ∧ (∀ k, k ∈ ks → lm !! k = Some (M !! k)) ∧
    (∀ k, k ∉ ks → lm !! k = None).
Proof. intros n B HB H V enc dec Hn Hc. exact (get_one_new Hn B H enc dec Hc). Qed.
Print Assumptions C54_few_absent.
Example C54_case : ∃ lm, out RB toy (get idc 16 (r6 RB) [K4; K1; K5; K3; K2; K x00 x43]) (w6 RB) = ROk lm ∧ _ :=
  C54_few_absent 2 RB _ toy _ idc idc ltac:(lia) idc_ok (w6 RB) (wlg6 RB) (whs6 RB) (r6 RB) M4 16 [K4; K1; K5; K3; K2; K x00 x43]
    rocks_scenario3 ltac:(nc) ltac:(left) ltac:(few) ltac:(lia).
(** Two absent keys that the descent takes for descendants of branches they do not pass. *)
Example C54_two_case : ∃ lm, out RB toy (get idc 16 (r6 RB) [K x01 x00; K x00 x80]) (w6 RB) = ROk lm ∧ _ :=
  C54_few_absent 2 RB _ toy _ idc idc ltac:(lia) idc_ok (w6 RB) (wlg6 RB) (whs6 RB) (r6 RB) M4 16 [K x01 x00; K x00 x80]
    rocks_scenario3 ltac:(nc) ltac:(left) ltac:(right; right; two) ltac:(lia).

(** C55: a batch with at most one key that is not in the tree, or with at most two keys. *)
Theorem C55_few_new :
  ∀ (n : nat) (B : backend n) (HB : BackendOk B) (H : list bytes → arr n)
    (V : Type) (enc : V → res bytes) (dec : bytes → res V), 0 < n → codec_ok enc dec →
  ∀ st lg hs D r M ks vs,
  hist B H enc dec st lg hs → no_collision H (lg ++ hlog B H (insert enc D (Some r) ks vs) st) → (r, M) ∈ hs →
  n = 1 ∨ (∀ x y, x ∈ ks → y ∈ ks → M !! x = None → M !! y = None → x = y) ∨
    (∃ u v, ∀ k, k ∈ ks → k = u ∨ k = v) →
  length ks = length vs → ks ≠ [] → NoDup ks → (∀ v, v ∈ vs → ∃ e, enc v = Ok e) → 8 * n ≤ D →
  ∃ r', out B H (insert enc D (Some r) ks vs) st = ROk r' ∧
    serves B H enc dec (fin B H (insert enc D (Some r) ks vs) st) r' (list_to_map (zip ks vs) ∪ M).
Proof. intros n B HB H V enc dec Hn Hc. exact (insert_one_new Hn B H enc dec Hc). Qed.
Print Assumptions C55_few_new.
Example C55_case : ∃ r', out HB toy (insert idc 16 (Some (r2 HB)) [K4; K5; K1] [v1; v2; v4]) (s3 HB) = ROk r' ∧ _ :=
  C55_few_new 2 HB _ toy _ idc idc ltac:(lia) idc_ok (s3 HB) (lg3 HB) (hs2 HB) 16 (r2 HB) (M2)
    [K4; K5; K1] [v1; v2; v4] hash_scenario ltac:(nc) ltac:(left) ltac:(few)
    eq_refl ltac:(done) ltac:(nd) ltac:(intros v _; by exists v) ltac:(lia).
(** A hazardous batch of two keys. *)
Example C55_two_case : ∃ r', out HB toy (insert idc 16 (Some (r1 HB)) [K x00 x80; K x01 x00] [v1; v2]) (s3 HB) = ROk r' ∧ _ :=
  C55_few_new 2 HB _ toy _ idc idc ltac:(lia) idc_ok (s3 HB) (lg3 HB) (hs2 HB) 16 (r1 HB) (M1)
    [K x00 x80; K x01 x00] [v1; v2] hash_scenario ltac:(nc) ltac:(right; left) ltac:(right; right; two)
    eq_refl ltac:(done) ltac:(nd) ltac:(intros v _; by exists v) ltac:(lia).

(** C56: [insert_each] (Usage.v) is the loop that calls [insert_one] for every pair.  No condition on the pairs. *)
Theorem C56_one_at_a_time :
  ∀ (n : nat) (B : backend n) (HB : BackendOk B) (H : list bytes → arr n)
    (V : Type) (enc : V → res bytes) (dec : bytes → res V), 0 < n → codec_ok enc dec →
  ∀ st lg hs D prev M kvs,
  hist B H enc dec st lg hs → prev_holds hs prev M →
  no_collision H (lg ++ hlog B H (insert_each enc D prev kvs) st) →
  (∀ k v, (k, v) ∈ kvs → ∃ e, enc v = Ok e) → 8 * n ≤ D → kvs ≠ [] →
  ∃ r, out B H (insert_each enc D prev kvs) st = ROk (Some r) ∧
    serves B H enc dec (fin B H (insert_each enc D prev kvs) st) r (foldl (λ m kv, <[kv.1 := kv.2]> m) M kvs) ∧
    (∀ r' M', (r', M') ∈ hs → serves B H enc dec (fin B H (insert_each enc D prev kvs) st) r' M').
Proof. intros n B HB H V enc dec Hn Hc. exact (each_holds Hn B H enc dec Hc). Qed.
Print Assumptions C56_one_at_a_time.
(** The batch for which [insert] loses a key ([C03_refuted]), and a key written twice. *)
Example C56_case : ∃ r, out RB toy (insert_each idc 16 (Some (r1 RB)) [(K x00 x80, v1); (K x01 x00, v2); (K3, v4); (K3, v3)]) (s3 RB) = ROk (Some r) ∧ _ :=
  C56_one_at_a_time 2 RB _ toy _ idc idc ltac:(lia) idc_ok (s3 RB) (lg3 RB) (hs2 RB) 16 (Some (r1 RB)) M1 [(K x00 x80, v1); (K x01 x00, v2); (K3, v4); (K3, v3)]
    rocks_scenario ltac:(right; left) ltac:(nc) ltac:(intros k v _; by exists v) ltac:(lia) ltac:(done).

(** C56: where the batch works, the loop gives the same root. *)
Theorem C56_same_root :
  ∀ (n : nat) (B : backend n) (HB : BackendOk B) (H : list bytes → arr n)
    (V : Type) (enc : V → res bytes) (dec : bytes → res V), 0 < n → codec_ok enc dec →
  ∀ st lg hs D prev M ks vs r,
  hist B H enc dec st lg hs → prev_holds hs prev M → mild M ks →
  no_collision H (lg ++ hlog B H (insert enc D prev ks vs) st) →
  no_collision H (lg ++ hlog B H (insert_each enc D prev (zip ks vs)) st) → 8 * n ≤ D →
  out B H (insert enc D prev ks vs) st = ROk r →
  out B H (insert_each enc D prev (zip ks vs)) st = ROk (Some r).
Proof. intros n B HB H V enc dec Hn Hc. exact (each_batch Hn B H enc dec Hc). Qed.
Print Assumptions C56_same_root.
Example C56_same_case : out HB toy (insert_each idc 16 (Some (r1 HB)) [(K4, v4); (K3, v3)]) (s3 HB) = ROk (Some (r2 HB)).
Proof.
  apply (C56_same_root 2 HB _ toy _ idc idc ltac:(lia) idc_ok (s3 HB) (lg3 HB) (hs2 HB) 16 (Some (r1 HB)) M1 [K4; K3] [v4; v3] (r2 HB));
    [exact hash_scenario|right; left|apply hazard_b_mild; vm_compute; reflexivity|nc|nc|lia|vm_compute; reflexivity].
Qed.

(** C57: an insertion made again with equal arguments, any calls later, gives the same root. *)
Theorem C57_same_call_same_root :
  ∀ (n : nat) (B : backend n) (HB : BackendOk B) (H : list bytes → arr n)
    (V : Type) (enc : V → res bytes) (dec : bytes → res V), 0 < n → codec_ok enc dec →
  ∀ st lg hs D prev M ks vs r cs st' D',
  hist B H enc dec st lg hs → prev_holds hs prev M → mild M ks →
  out B H (insert enc D prev ks vs) st = ROk r →
  st' = after B H enc dec (fin B H (insert enc D prev ks vs) st) cs →
  no_collision H (lg ++ hlog B H (insert enc D prev ks vs) st ++
    after_log B H enc dec (fin B H (insert enc D prev ks vs) st) cs ++ hlog B H (insert enc D' prev ks vs) st') →
  8 * n ≤ D' → out B H (insert enc D' prev ks vs) st' = ROk r.
Proof. intros n B HB H V enc dec Hn Hc. exact (insert_again Hn B H enc dec Hc). Qed.
Print Assumptions C57_same_call_same_root.
Example C57_case : let st' := after HB toy idc idc (s1 HB) [CInsertOne 17 (Some (r1 HB)) K5 v1; CInsert 0 (Some (r1 HB)) [K1] [v4]] in
  out HB toy (insert idc 16 None [K2; K1] [v2; v1]) st' = ROk (r1 HB).
Proof.
  eapply (C57_same_call_same_root 2 HB _ toy _ idc idc ltac:(lia) idc_ok (b_init HB) [] [] 17 None ∅ [K2; K1] [v2; v1] (r1 HB)
    [CInsertOne 17 (Some (r1 HB)) K5 v1; CInsert 0 (Some (r1 HB)) [K1] [v4]]);
    [apply hist_init|done|left; apply benign_empty|vm_compute; reflexivity|reflexivity|nc|lia].
Qed.

(** C57: what the calls do to the caller's slice of keys.  Keys in ascending order stay as they are, so
    a call with the same variables is then a call with equal arguments; otherwise it is not: [C57_refuted]. *)
Theorem C57_buffers_partial :
  ∀ (n : nat) (V : Type) (ks : list (arr n)) (vs : list V),
  keys_after_insert ks vs ≡ₚ ks ∧ keys_after_get ks ≡ₚ ks ∧
  (length ks = length vs → ks ≠ [] → StronglySorted arr_le (keys_after_insert ks vs)) ∧
  (length ks ≠ length vs → keys_after_insert ks vs = ks) ∧
  StronglySorted arr_le (keys_after_get ks) ∧
  (StronglySorted arr_le ks → keys_after_insert ks vs = ks ∧ keys_after_get ks = ks).
Proof. intros n V. exact buffer_after. Qed.
Print Assumptions C57_buffers_partial.
Example C57_buffers_case : keys_after_insert [K2; K4; K1] [v1; v2; v3] = [K1; K2; K4] ∧ keys_after_insert [K2; K1] [v1] = [K2; K1].
Proof. vm_compute. split; reflexivity. Qed.

(** C57, with the caller's own variables: the first call sorts the keys and not the values, so the second
    call pairs them differently, and succeeds. *)
Theorem C57_refuted :
  ∀ B : backend 2, B = hash_db 2 ∨ B = rocks_db 2 →
  ∃ ks vs r r', NoDup ks ∧ length ks = length vs ∧
    out B toy (insert idc 17 None ks vs) (b_init B) = ROk r ∧
    let st := fin B toy (insert idc 17 None ks vs) (b_init B) in
    let again := insert idc 17 None (keys_after_insert ks vs) vs in
    no_collision toy (hlog B toy (insert idc 17 None ks vs) (b_init B) ++ hlog B toy again st) ∧
    out B toy again st = ROk r' ∧
    out B toy (get_one idc 17 r K1) (fin B toy again st) = ROk (Some v1) ∧
    out B toy (get_one idc 17 r' K1) (fin B toy again st) = ROk (Some v2).
Proof.  exact buffers_refuted. Qed.
Print Assumptions C57_refuted.

(** C58: any backend and state. *)
Theorem C58_request_order :
  ∀ (n : nat) (B : backend n) (H : list bytes → arr n) (V : Type) (dec : bytes → res V),
  ∀ D r ks ks' st, ks ≡ₚ ks' → run B H (get dec D r ks) st = run B H (get dec D r ks') st.
Proof. intros n B H V dec. exact (get_order B H dec). Qed.
Print Assumptions C58_request_order.
Example C58_case : run RB toy (get idc 2 (r2 RB) [K5; K1; K4]) (s3 RB) = run RB toy (get idc 2 (r2 RB) [K4; K5; K1]) (s3 RB).
Proof. apply C58_request_order. apply Permutation_sym. eapply perm_trans; [apply perm_swap|]. apply perm_skip, perm_swap. Qed.
