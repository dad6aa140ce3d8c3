(** * Properties of histories with removals
    Statements only; see PropsHist.v for the conventions.  [rhist] and
    [serves] are defined in Spec.v.  The [Example]s use the second history of
    Scenario.v. *)
From Coq Require Import Strings.Byte NArith.
From stdpp Require Import prelude countable gmap sorting strings.
From Verif Require Import Model Bits Spec Logic Safe Claims Live Scenario.

Local Open Scope nat_scope.

Notation HB := (hash_db 2). Notation RB := (rocks_db 2).
Ltac nc := apply no_collision_b_sound; vm_compute; reflexivity.
Ltac nd := repeat (apply NoDup_cons; split; [intros Hin; repeat (apply elem_of_cons in Hin as [Hin|Hin]; [discriminate Hin|]); by apply elem_of_nil in Hin|]); apply NoDup_nil_2.
Lemma live_perm {B : backend 2} : hs4 B ≡ₚ (r2 B, M2) :: [(r4 B, M4)].
Proof. apply Permutation_swap. Qed.

(** C19 *)
Theorem C19_insert_then_remove :
  ∀ (n : nat) (B : backend n) (HB : BackendOk B) (H : list bytes → arr n)
    (V : Type) (enc : V → res bytes) (dec : bytes → res V), 0 < n → codec_ok enc dec →
  ∀ D ks vs r,
  no_collision H (hlog B H (insert enc D None ks vs) (b_init B)) →
  out B H (insert enc D None ks vs) (b_init B) = ROk r →
  let st := fin B H (insert enc D None ks vs) (b_init B) in
  b_vis B (fin B H (remove_prog B st r) st) = ∅.
Proof. intros n B HB H V enc dec Hn Hc. exact (insert_remove_empty Hn B H enc dec Hc). Qed.
Print Assumptions C19_insert_then_remove.
Example C19_case : size (b_vis RB (s1 RB)) = 5 ∧ b_vis RB (fin RB toy (remove_prog RB (s1 RB) (r1 RB)) (s1 RB)) = ∅.
Proof.
  split; [vm_compute; reflexivity|].
  apply (C19_insert_then_remove 2 RB _ toy _ idc idc ltac:(lia) idc_ok 17 [K2; K1] [v2; v1]); [nc|vm_compute; reflexivity].
Qed.

(** C19, generalised: in any reachable state, into any live root, inserting fresh pairs and removing
    the new root gives back exactly the database there was, reference counts included. *)
Theorem C19_insert_remove_restores :
  ∀ (n : nat) (B : backend n) (HB : BackendOk B) (H : list bytes → arr n)
    (V : Type) (enc : V → res bytes) (dec : bytes → res V), 0 < n → codec_ok enc dec →
  ∀ st lg hs D prev M ks vs r,
  rhist B H enc dec st lg hs → prev_holds hs prev M → benign M ks → fresh_pairs hs ks vs →
  no_collision H (lg ++ hlog B H (insert enc D prev ks vs) st) →
  out B H (insert enc D prev ks vs) st = ROk r →
  let st' := fin B H (insert enc D prev ks vs) st in
  b_vis B (fin B H (remove_prog B st' r) st') = b_vis B st.
Proof. intros n B HB H V enc dec Hn Hc. exact (insert_remove Hn B H enc dec Hc). Qed.
Print Assumptions C19_insert_remove_restores.
Example C19_restores_case : b_vis HB (fin HB toy (remove_prog HB (q4 HB) (r4 HB)) (q4 HB)) = b_vis HB (q2 HB).
Proof.
  eapply (C19_insert_remove_restores 2 HB _ toy _ idc idc ltac:(lia) idc_ok (q2 HB) (lg2 HB) [(r2 HB, M2)] 17
    (Some (r2 HB)) M2 [K5] [v1]).
  - exact hash_mid.
  - left.
  - apply benign_single.
  - apply scenario2_fresh.
  - nc.
  - vm_compute. reflexivity.
Qed.

(** C20, for histories whose insertions write only pairs that no live root holds (and benign batches).
    Without that condition the statement is false: [C20_refuted] (PropsRefuted.v). *)
Theorem C20_other_roots_kept_partial :
  ∀ (n : nat) (B : backend n) (HB : BackendOk B) (H : list bytes → arr n)
    (V : Type) (enc : V → res bytes) (dec : bytes → res V), 0 < n → codec_ok enc dec →
  ∀ st lg hs r M hs' r' M',
  rhist B H enc dec st lg hs → no_collision H lg → hs ≡ₚ (r, M) :: hs' → (r', M') ∈ hs' →
  serves B H enc dec st r' M' ∧ serves B H enc dec (fin B H (remove_prog B st r) st) r' M'.
Proof. intros n B HB H V enc dec Hn Hc. exact (remove_others Hn B H enc dec Hc). Qed.
Print Assumptions C20_other_roots_kept_partial.
Example C20_case : serves RB toy idc idc (fin RB toy (remove_prog RB (q4 RB) (r2 RB)) (q4 RB)) (r4 RB) M4 :=
  proj2 (C20_other_roots_kept_partial 2 RB _ toy _ idc idc ltac:(lia) idc_ok _ _ _ (r2 RB) M2 [(r4 RB, M4)] _ _
    rocks_scenario2 rocks_scenario2_nc live_perm ltac:(left)).

(** C20: every live root of every such history is served, whatever was removed before. *)
Theorem C20_live_roots_served_partial :
  ∀ (n : nat) (B : backend n) (HB : BackendOk B) (H : list bytes → arr n)
    (V : Type) (enc : V → res bytes) (dec : bytes → res V), 0 < n → codec_ok enc dec →
  ∀ st lg hs r M,
  rhist B H enc dec st lg hs → no_collision H lg → (r, M) ∈ hs → serves B H enc dec st r M.
Proof. intros n B HB H V enc dec Hn Hc. exact (live_serves Hn B H enc dec Hc). Qed.
Print Assumptions C20_live_roots_served_partial.
Example C20_live_case : serves HB toy idc idc (q4 HB) (r2 HB) M2 :=
  C20_live_roots_served_partial 2 HB _ toy _ idc idc ltac:(lia) idc_ok _ _ _ _ _ hash_scenario2 hash_scenario2_nc
    ltac:(right; left).

(** Such histories can always be continued: insertions keep succeeding, as in C01-C03. *)
Theorem C20_live_insert_total :
  ∀ (n : nat) (B : backend n) (HB : BackendOk B) (H : list bytes → arr n)
    (V : Type) (enc : V → res bytes) (dec : bytes → res V), 0 < n → codec_ok enc dec →
  ∀ st lg hs D prev M ks vs,
  rhist B H enc dec st lg hs → no_collision H (lg ++ hlog B H (insert enc D prev ks vs) st) →
  prev_holds hs prev M → benign M ks → fresh_pairs hs ks vs →
  length ks = length vs → ks ≠ [] → NoDup ks → (∀ v, v ∈ vs → ∃ e, enc v = Ok e) →
  (prev = None ∨ 8 * n ≤ D) →
  ∃ r, out B H (insert enc D prev ks vs) st = ROk r ∧
    rhist B H enc dec (fin B H (insert enc D prev ks vs) st) (lg ++ hlog B H (insert enc D prev ks vs) st)
      ((r, updated M ks vs) :: hs) ∧
    serves B H enc dec (fin B H (insert enc D prev ks vs) st) r (updated M ks vs).
Proof. intros n B HB H V enc dec Hn Hc. exact (live_insert_total Hn B H enc dec Hc). Qed.
Print Assumptions C20_live_insert_total.
Example C20_total_case : ∃ r, out RB toy (insert idc 16 (Some (r4 RB)) [K5; K1] [v2; v4]) (q4 RB) = ROk r ∧ _ :=
  C20_live_insert_total 2 RB _ toy _ idc idc ltac:(lia) idc_ok (q4 RB) (lg4 RB) (hs4 RB) 16 (Some (r4 RB)) M4
    [K5; K1] [v2; v4] rocks_scenario2 ltac:(nc) ltac:(left) ltac:(apply hazard_b_sound; vm_compute; reflexivity)
    ltac:(apply fresh_b_sound; vm_compute; reflexivity) eq_refl ltac:(done) ltac:(nd)
    ltac:(intros v _; by exists v) ltac:(right; lia).

(** After removals too, any further call (any arguments and outcome) serves every live root at
    every intermediate state, also when the process stops there and queued writes are lost. *)
Theorem C20_any_call_keeps_live_roots :
  ∀ (n : nat) (B : backend n) (HB : BackendOk B) (H : list bytes → arr n)
    (V : Type) (enc : V → res bytes) (dec : bytes → res V), 0 < n → codec_ok enc dec →
  ∀ st lg hs c st' r M,
  rhist B H enc dec st lg hs → no_collision H (lg ++ hlog B H (exec enc dec c) st) →
  st' ∈ states B H (exec enc dec c) st → (r, M) ∈ hs →
  serves B H enc dec st' r M ∧ serves B H enc dec (b_drop B st') r M.
Proof. intros n B HB H V enc dec Hn Hc. exact (live_calls Hn B H enc dec Hc). Qed.
Print Assumptions C20_any_call_keeps_live_roots.
Example C20_any_call_case : serves HB toy idc idc
    (fin HB toy (exec idc idc (CInsert 17 (Some (r2 HB)) [K3; K3] [v1; v1])) (q4 HB)) (r4 HB) M4.
Proof.
  refine (proj1 (C20_any_call_keeps_live_roots 2 HB _ toy _ idc idc ltac:(lia) idc_ok _ _ _
    (CInsert 17 (Some (r2 HB)) [K3; K3] [v1; v1]) _ _ _ hash_scenario2 _ (run_in_states _ _ _ _) _)); [nc|left].
Qed.

(** C21, for the same histories.  In general false: [C21_refuted]. *)
Theorem C21_all_removed_partial :
  ∀ (n : nat) (B : backend n) (HB : BackendOk B) (H : list bytes → arr n)
    (V : Type) (enc : V → res bytes) (dec : bytes → res V), 0 < n → codec_ok enc dec →
  ∀ st lg,
  rhist B H enc dec st lg [] → no_collision H lg → b_vis B st = ∅.
Proof. intros n B HB H V enc dec Hn Hc. exact (all_removed Hn B H enc dec Hc). Qed.
Print Assumptions C21_all_removed_partial.
Example C21_case : let st5 := fin RB toy (remove_prog RB (q4 RB) (r2 RB)) (q4 RB) in
  b_vis RB (fin RB toy (remove_prog RB st5 (r4 RB)) st5) = ∅.
Proof.
  apply (C21_all_removed_partial 2 RB _ toy _ idc idc ltac:(lia) idc_ok _ (lg4 RB)); [|exact rocks_scenario2_nc].
  eapply rhist_remove with (M := M4); [|apply Permutation_refl].
  eapply rhist_remove; [exact rocks_scenario2|exact live_perm].
Qed.

(** C23: no other live map contains the removed one, so its root is part of no live root.  The
    condition of the last clause excludes that the insertion itself writes a leaf at [r]. *)
Theorem C23_removed_root_reads_empty :
  ∀ (n : nat) (B : backend n) (HB : BackendOk B) (H : list bytes → arr n)
    (V : Type) (enc : V → res bytes) (dec : bytes → res V), 0 < n → codec_ok enc dec →
  ∀ st lg hs r M hs',
  rhist B H enc dec st lg hs → no_collision H lg →
  hs ≡ₚ (r, M) :: hs' → (∀ r' M', (r', M') ∈ hs' → ¬ M ⊆ M') →
  let st' := fin B H (remove_prog B st r) st in
  (∀ D ks, ∃ lm, out B H (get dec D r ks) st' = ROk lm ∧
     ∀ k, lm !! k = if decide (k ∈ ks) then Some None else None) ∧
  (∀ D k, out B H (get_one dec D r k) st' = ROk None) ∧
  (∀ D k, ∃ er, out B H (generate_inclusion_proof D r k) st' = RErr er) ∧
  (∀ D ks vs, no_collision H (lg ++ hlog B H (insert enc D (Some r) ks vs) st') →
     (∀ k v, (k, v) ∈ zip ks vs → M ≠ {[k := v]}) →
     ∃ er, out B H (insert enc D (Some r) ks vs) st' = RErr er).
Proof. intros n B HB H V enc dec Hn Hc. exact (removed_reads_empty Hn B H enc dec Hc). Qed.
Print Assumptions C23_removed_root_reads_empty.
Example C23_case : ∀ D k, out RB toy (get_one idc D (r4 RB) k) (fin RB toy (remove_prog RB (q4 RB) (r4 RB)) (q4 RB)) = ROk None.
Proof.
  refine (proj1 (proj2 (C23_removed_root_reads_empty 2 RB _ toy _ idc idc ltac:(lia) idc_ok (q4 RB) (lg4 RB) (hs4 RB)
    (r4 RB) M4 [(r2 RB, M2)] rocks_scenario2 rocks_scenario2_nc (Permutation_refl _) (scenario2_sub RB)))).
Qed.

(** C30: [states] lists the states before and after each database operation of the removal;
    [b_drop] loses the queued writes. *)
Theorem C30_crash_during_remove :
  ∀ (n : nat) (B : backend n) (HB : BackendOk B) (H : list bytes → arr n)
    (V : Type) (enc : V → res bytes) (dec : bytes → res V), 0 < n → codec_ok enc dec →
  ∀ st lg hs r M hs' st' r' M',
  rhist B H enc dec st lg hs → no_collision H lg →
  hs ≡ₚ (r, M) :: hs' → st' ∈ states B H (remove_prog B st r) st → (r', M') ∈ hs' →
  serves B H enc dec (b_drop B st') r' M'.
Proof. intros n B HB H V enc dec Hn Hc. exact (remove_crash Hn B H enc dec Hc). Qed.
Print Assumptions C30_crash_during_remove.
Example C30_case : length (states RB toy (remove_prog RB (q4 RB) (r2 RB)) (q4 RB)) = 12 ∧
  ∀ st', st' ∈ states RB toy (remove_prog RB (q4 RB) (r2 RB)) (q4 RB) →
    serves RB toy idc idc (b_drop RB st') (r4 RB) M4.
Proof.
  split; [vm_compute; reflexivity|]. intros st' Hst'.
  eapply (C30_crash_during_remove 2 RB _ toy _ idc idc ltac:(lia) idc_ok);
    [exact rocks_scenario2|exact rocks_scenario2_nc|exact live_perm|exact Hst'|left].
Qed.

(** C41 *)
Theorem C41_reference_counts_exact :
  ∀ (n : nat) (B : backend n) (HB : BackendOk B) (H : list bytes → arr n)
    (V : Type) (enc : V → res bytes) (dec : bytes → res V), 0 < n → codec_ok enc dec →
  ∀ st lg hs l nd,
  rhist B H enc dec st lg hs → no_collision H lg → b_vis B st !! l = Some nd →
  refs nd = pointers (b_vis B st) l + occurrences l hs.*1 ∧ 0 < refs nd.
Proof. intros n B HB H V enc dec Hn Hc. exact (counts_exact Hn B H enc dec Hc). Qed.
Print Assumptions C41_reference_counts_exact.
Example C41_case : (* the leaf of [K4] is shared by the two live trees *)
  let l := toy (leaf_in K4 (toy (data_in K4 v4))) in
  (refs <$> b_vis RB (q4 RB) !! l) = Some 2 ∧ pointers (b_vis RB (q4 RB)) l = 2 ∧ occurrences l (hs4 RB).*1 = 0.
Proof. vm_compute. split_and!; reflexivity. Qed.

(** C42, when no live map contains the removed one.  In general false: [C42_refuted]. *)
Theorem C42_remove_twice_partial :
  ∀ (n : nat) (B : backend n) (HB : BackendOk B) (H : list bytes → arr n)
    (V : Type) (enc : V → res bytes) (dec : bytes → res V), 0 < n → codec_ok enc dec →
  ∀ st lg hs r M hs',
  rhist B H enc dec st lg hs → no_collision H lg →
  hs ≡ₚ (r, M) :: hs' → (∀ r' M', (r', M') ∈ hs' → ¬ M ⊆ M') →
  let st1 := fin B H (remove_prog B st r) st in
  let st2 := fin B H (remove_prog B st1 r) st1 in
  b_vis B st2 = b_vis B st1 ∧ ∀ r' M', (r', M') ∈ hs' → serves B H enc dec st2 r' M'.
Proof. intros n B HB H V enc dec Hn Hc. exact (remove_twice Hn B H enc dec Hc). Qed.
Print Assumptions C42_remove_twice_partial.
Example C42_case : let st1 := fin HB toy (remove_prog HB (q4 HB) (r4 HB)) (q4 HB) in
  serves HB toy idc idc (fin HB toy (remove_prog HB st1 (r4 HB)) st1) (r2 HB) M2.
Proof.
  refine (proj2 (C42_remove_twice_partial 2 HB _ toy _ idc idc ltac:(lia) idc_ok (q4 HB) (lg4 HB) (hs4 HB) (r4 HB) M4
    [(r2 HB, M2)] hash_scenario2 hash_scenario2_nc (Permutation_refl _) (scenario2_sub HB)) _ _ _). left.
Qed.

(** C47 *)
Theorem C47_store_is_function_of_live_roots :
  ∀ (n : nat) (B : backend n) (HB : BackendOk B) (H : list bytes → arr n)
    (V : Type) (enc : V → res bytes) (dec : bytes → res V), 0 < n → codec_ok enc dec →
  ∀ st st' lg lg' hs hs',
  rhist B H enc dec st lg hs → rhist B H enc dec st' lg' hs' → no_collision H (lg ++ lg') →
  hs ≡ₚ hs' → b_vis B st = b_vis B st'.
Proof. intros n B HB H V enc dec Hn Hc. exact (same_handles_same_store Hn B H enc dec Hc). Qed.
Print Assumptions C47_store_is_function_of_live_roots.
Example C47_case : (* inserting M1 and removing [r2] of the second insertion gives the store of the first *)
  b_vis HB (fin HB toy (remove_prog HB (s2 HB) (r2 HB)) (s2 HB)) = b_vis HB (s1 HB).
Proof.
  eapply (C47_store_is_function_of_live_roots 2 HB _ toy _ idc idc ltac:(lia) idc_ok _ _ (lg2 HB) (lg1 HB)
    (hs1 HB) (hs1 HB)); [| |nc|done].
  - eapply rhist_remove with (hs := hs2 HB); [exact hash_prefix|apply Permutation_refl].
  - exact hash_first.
Qed.
