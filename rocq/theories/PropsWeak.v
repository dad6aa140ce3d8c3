(** * Properties of histories in which calls fail or are cut short
    Statements only; see PropsHist.v for the conventions.  [whist] and
    [serves] are defined in Spec.v.

    The [Example]s use the history of Scenario3.v, which continues the one of
    Scenario.v:
    - [insert(None, [K1, K2], [v1, v2])], returning [r1],
    - [insert(Some(r1), [K3, K4], [v3, v4])], returning [r2],
    - [insert(Some(r2), [K1, K1], [v3, v4])], which fails (duplicate key) and
      leaves its leaves behind,
    - [insert(Some(r2), [K5], [v1])], cut short after ten steps,
    - [remove(r1)], cut short after three steps,
    - [insert(Some(r2), [K5], [v1])] again, returning [r6]. *)
From Coq Require Import Strings.Byte NArith.
From stdpp Require Import prelude countable gmap sorting strings.
From Verif Require Import Model Bits Spec Logic Safe Claims Live Regrow Weak Scenario Scenario3.

Local Open Scope nat_scope.

Notation HB := (hash_db 2). Notation RB := (rocks_db 2).
Ltac nc := apply no_collision_b_sound; vm_compute; reflexivity.

(** C51: in every state of every such history, all handles in use give their maps. *)
Theorem C51_live_roots_served :
  ∀ (n : nat) (B : backend n) (HB : BackendOk B) (H : list bytes → arr n)
    (V : Type) (enc : V → res bytes) (dec : bytes → res V), 0 < n → codec_ok enc dec →
  ∀ st lg hs r M,
  whist B H enc dec st lg hs → no_collision H lg → (r, M) ∈ hs → serves B H enc dec st r M.
Proof. intros n B HB H V enc dec Hn Hc. exact (weak_serves Hn B H enc dec Hc). Qed.
Print Assumptions C51_live_roots_served.
Example C51_case : serves HB toy idc idc (w6 HB) (r6 HB) M4 ∧ serves RB toy idc idc (w6 RB) (r2 RB) M2.
Proof.
  split.
  - eapply (C51_live_roots_served 2 HB _ toy _ idc idc ltac:(lia) idc_ok); [exact hash_scenario3|nc|left].
  - eapply (C51_live_roots_served 2 RB _ toy _ idc idc ltac:(lia) idc_ok); [exact rocks_scenario3|nc|right; left].
Qed.
(** The failures leave traces: more nodes than the two live trees need. *)
Example C51_traces : size (b_vis RB (w6 RB)) = 18 ∧ size (b_vis RB (q4 RB)) = 16.
Proof. vm_compute. split; reflexivity. Qed.

(** C51, at every point of a failing call, with any arguments. *)
Theorem C51_failing_call :
  ∀ (n : nat) (B : backend n) (HB : BackendOk B) (H : list bytes → arr n)
    (V : Type) (enc : V → res bytes) (dec : bytes → res V), 0 < n → codec_ok enc dec →
  ∀ st lg hs c st' r M,
  whist B H enc dec st lg hs → no_collision H (lg ++ hlog B H (exec enc dec c) st) →
  (∃ er, out B H (exec enc dec c) st = RErr er) → st' ∈ states B H (exec enc dec c) st → (r, M) ∈ hs →
  serves B H enc dec st' r M ∧ serves B H enc dec (b_drop B st') r M.
Proof. intros n B HB H V enc dec Hn Hc. exact (weak_calls Hn B H enc dec Hc). Qed.
Print Assumptions C51_failing_call.
Example C51_failing_case : let c := CInsert 17 (Some K2) [K5; K1] [v1; v2] in
  ∀ st', st' ∈ states RB toy (exec idc idc c) (w6 RB) → serves RB toy idc idc st' (r6 RB) M4.
Proof.
  intros c st' Hst'. refine (proj1 (C51_failing_call 2 RB _ toy _ idc idc ltac:(lia) idc_ok (w6 RB) (wlg6 RB) (whs6 RB) c st' _ _ rocks_scenario3 _ _ Hst' _)).
  - nc.
  - eexists. vm_compute. reflexivity.
  - left.
Qed.

(** C51, at every point of an insertion. *)
Theorem C51_during_insert :
  ∀ (n : nat) (B : backend n) (HB : BackendOk B) (H : list bytes → arr n)
    (V : Type) (enc : V → res bytes) (dec : bytes → res V), 0 < n → codec_ok enc dec →
  ∀ st lg hs D prev M ks vs st' r M',
  whist B H enc dec st lg hs → no_collision H (lg ++ hlog B H (insert enc D prev ks vs) st) →
  prev_holds hs prev M → benign M ks → fresh_branches hs M ks vs →
  st' ∈ states B H (insert enc D prev ks vs) st → (r, M') ∈ hs →
  serves B H enc dec st' r M' ∧ serves B H enc dec (b_drop B st') r M'.
Proof. intros n B HB H V enc dec Hn Hc. exact (weak_during Hn B H enc dec Hc). Qed.
Print Assumptions C51_during_insert.
Example C51_during_case : length (states RB toy (i4 RB) (w5 RB)) = 24 ∧
  ∀ st', st' ∈ states RB toy (i4 RB) (w5 RB) → serves RB toy idc idc (b_drop RB st') (r2 RB) M2.
Proof.
  split; [vm_compute; reflexivity|]. intros st' Hst'.
  refine (proj2 (C51_during_insert 2 RB _ toy _ idc idc ltac:(lia) idc_ok (w5 RB) (wlg4 RB) (whs5 RB) 17 (Some (r2 RB)) M2 [K5] [v1] st' _ _ rocks_cut _ _ _ _ Hst' _)).
  - nc.
  - left.
  - apply benign_single.
  - apply fresh_pairs_branches, scenario2_fresh.
  - left.
Qed.

(** C51, at every point of a removal, which succeeds. *)
Theorem C51_during_remove :
  ∀ (n : nat) (B : backend n) (HB : BackendOk B) (H : list bytes → arr n)
    (V : Type) (enc : V → res bytes) (dec : bytes → res V), 0 < n → codec_ok enc dec →
  ∀ st lg hs r M hs',
  whist B H enc dec st lg hs → no_collision H lg → hs ≡ₚ (r, M) :: hs' →
  out B H (remove_prog B st r) st = ROk tt ∧
  ∀ st' r' M', st' ∈ states B H (remove_prog B st r) st → (r', M') ∈ hs' →
    serves B H enc dec st' r' M' ∧ serves B H enc dec (b_drop B st') r' M'.
Proof. intros n B HB H V enc dec Hn Hc. exact (weak_remove Hn B H enc dec Hc). Qed.
Print Assumptions C51_during_remove.
Example C51_remove_case : ∀ st', st' ∈ states RB toy (remove_prog RB (w6 RB) (r2 RB)) (w6 RB) →
  serves RB toy idc idc st' (r6 RB) M4.
Proof.
  intros st' Hst'.
  refine (proj1 (proj2 (C51_during_remove 2 RB _ toy _ idc idc ltac:(lia) idc_ok (w6 RB) (wlg6 RB) (whs6 RB) (r2 RB) M2 [(r6 RB, M4)] rocks_scenario3 _ _) st' _ _ Hst' _)).
  - nc.
  - apply Permutation_swap.
  - left.
Qed.

(** C51: whatever failed before, a well-formed insertion succeeds. *)
Theorem C51_insert_succeeds :
  ∀ (n : nat) (B : backend n) (HB : BackendOk B) (H : list bytes → arr n)
    (V : Type) (enc : V → res bytes) (dec : bytes → res V), 0 < n → codec_ok enc dec →
  ∀ st lg hs D prev M ks vs,
  whist B H enc dec st lg hs → no_collision H (lg ++ hlog B H (insert enc D prev ks vs) st) →
  prev_holds hs prev M → benign M ks → fresh_branches hs M ks vs →
  length ks = length vs → ks ≠ [] → NoDup ks → (∀ v, v ∈ vs → ∃ e, enc v = Ok e) →
  (prev = None ∨ 8 * n ≤ D) →
  ∃ r, out B H (insert enc D prev ks vs) st = ROk r ∧
    whist B H enc dec (fin B H (insert enc D prev ks vs) st) (lg ++ hlog B H (insert enc D prev ks vs) st)
      ((r, updated M ks vs) :: hs).
Proof. intros n B HB H V enc dec Hn Hc. exact (weak_insert_total Hn B H enc dec Hc). Qed.
Print Assumptions C51_insert_succeeds.
Example C51_insert_case : ∃ r, out RB toy (i4 RB) (w5 RB) = ROk r.
Proof.
  destruct (C51_insert_succeeds 2 RB _ toy _ idc idc ltac:(lia) idc_ok (w5 RB) (wlg4 RB) (whs5 RB) 17 (Some (r2 RB)) M2 [K5] [v1] rocks_cut) as (r & Hr & _);
    [nc|left|apply benign_single|apply fresh_pairs_branches, scenario2_fresh|done|done|apply NoDup_singleton|eauto|right; lia|].
  exists r. exact Hr.
Qed.

(** C51: an insertion or removal whose [i]-th database operation fails continues the history. *)
Theorem C51_storage_error :
  ∀ (n : nat) (B : backend n) (HB : BackendOk B) (H : list bytes → arr n)
    (V : Type) (enc : V → res bytes) (dec : bytes → res V), 0 < n → codec_ok enc dec →
  ∀ st lg hs i,
  whist B H enc dec st lg hs →
  (∀ D prev M ks vs, prev_holds hs prev M → benign M ks → fresh_branches hs M ks vs →
     whist B H enc dec (run_fault B H i (insert enc D prev ks vs) st).2
       (lg ++ hlog B H (insert enc D prev ks vs) st) hs) ∧
  (∀ r M hs', hs ≡ₚ (r, M) :: hs' → whist B H enc dec (run_fault B H i (remove_prog B st r) st).2 lg hs').
Proof. intros n B HB H V enc dec Hn Hc. intros st lg hs i Hh. split; [intros; by eapply fault_insert|intros; by eapply fault_remove]. Qed.
Print Assumptions C51_storage_error.
Example C51_storage_case : (run_fault RB toy 7 (i4 RB) (w5 RB)).1 = RErr "database failure" ∧
  serves RB toy idc idc (run_fault RB toy 7 (i4 RB) (w5 RB)).2 (r2 RB) M2.
Proof.
  split; [vm_compute; reflexivity|].
  eapply (C51_live_roots_served 2 RB _ toy _ idc idc ltac:(lia) idc_ok _ (wlg4 RB ++ hlog RB toy (i4 RB) (w5 RB))); [|nc|left].
  eapply (proj1 (C51_storage_error 2 RB _ toy _ idc idc ltac:(lia) idc_ok (w5 RB) (wlg4 RB) (whs5 RB) 7 rocks_cut) 17 (Some (r2 RB)) M2 [K5] [v1]);
    [left|apply benign_single|apply fresh_pairs_branches, scenario2_fresh].
Qed.

(** C52: after a database failure at any operation the same call succeeds, with the root it would have
    returned without the failure. *)
Theorem C52_retry :
  ∀ (n : nat) (B : backend n) (HB : BackendOk B) (H : list bytes → arr n)
    (V : Type) (enc : V → res bytes) (dec : bytes → res V), 0 < n → codec_ok enc dec →
  ∀ st lg hs D prev M ks vs i,
  whist B H enc dec st lg hs → prev_holds hs prev M → benign M ks → fresh_branches hs M ks vs →
  length ks = length vs → ks ≠ [] → NoDup ks → (∀ v, v ∈ vs → ∃ e, enc v = Ok e) →
  (prev = None ∨ 8 * n ≤ D) →
  let st1 := (run_fault B H i (insert enc D prev ks vs) st).2 in
  let st2 := fin B H (insert enc D prev ks vs) st1 in
  no_collision H ((lg ++ hlog B H (insert enc D prev ks vs) st) ++ hlog B H (insert enc D prev ks vs) st1) →
  ∃ r, out B H (insert enc D prev ks vs) st = ROk r ∧ out B H (insert enc D prev ks vs) st1 = ROk r ∧
    ∀ r' M', (r', M') ∈ (r, updated M ks vs) :: hs → serves B H enc dec st2 r' M'.
Proof. intros n B HB H V enc dec Hn Hc. exact (retry Hn B H enc dec Hc). Qed.
Print Assumptions C52_retry.
Example C52_case : ∀ i, i ∈ seq 0 24 → ∃ r, out RB toy (i4 RB) (w5 RB) = ROk r ∧
  out RB toy (i4 RB) (run_fault RB toy i (i4 RB) (w5 RB)).2 = ROk r.
Proof.
  intros i Hi.
  destruct (C52_retry 2 RB _ toy _ idc idc ltac:(lia) idc_ok (w5 RB) (wlg4 RB) (whs5 RB) 17 (Some (r2 RB)) M2 [K5] [v1] i rocks_cut)
    as (r & H1 & H2 & _); [left|apply benign_single|apply fresh_pairs_branches, scenario2_fresh|done|done|apply NoDup_singleton|eauto|right; lia| |exists r; split; [exact H1|exact H2]].
  clear -Hi. revert i Hi. apply Forall_forall.
  assert (forallb (λ i, no_collision_b toy ((wlg4 RB ++ hlog RB toy (i4 RB) (w5 RB)) ++
    hlog RB toy (i4 RB) (run_fault RB toy i (i4 RB) (w5 RB)).2)) (seq 0 24) = true) as Hb by (vm_compute; reflexivity).
  apply Forall_forall. intros i Hi. apply no_collision_b_sound.
  rewrite forallb_forall in Hb. by apply Hb, elem_of_list_In.
Qed.

(** C53: with removals, failures and interruptions, and across backends, equal roots mean equal maps. *)
Theorem C53_root_canonical :
  ∀ (n : nat) (B1 B2 : backend n) (HB1 : BackendOk B1) (HB2 : BackendOk B2) (H : list bytes → arr n)
    (V : Type) (enc : V → res bytes) (dec : bytes → res V), 0 < n → codec_ok enc dec →
  ∀ st1 lg1 hs1 st2 lg2 hs2 r1 r2 M1 M2,
  whist B1 H enc dec st1 lg1 hs1 → whist B2 H enc dec st2 lg2 hs2 ∨ hist B2 H enc dec st2 lg2 hs2 →
  no_collision H (lg1 ++ lg2) → (r1, M1) ∈ hs1 → (r2, M2) ∈ hs2 → r1 = r2 ↔ M1 = M2.
Proof.  intros n B1 B2 HB1 HB2 H V enc dec Hn Hc. exact (weak_root Hn B1 B2 H enc dec Hc). Qed.
Print Assumptions C53_root_canonical.
Example C53_case : r6 RB = r4 HB.
Proof.
  apply (C53_root_canonical 2 RB HB _ _ toy _ idc idc ltac:(lia) idc_ok (w6 RB) (wlg6 RB) (whs6 RB) (q4 HB) (lg4 HB) (hs4 HB)
    (r6 RB) (r4 HB) M4 M4); [exact rocks_scenario3|left; apply rhist_whist, hash_scenario2|nc|left|left|done].
Qed.

(** The histories of C20, C21 and C41 are among these. *)
Theorem C51_extends_removal_histories :
  ∀ (n : nat) (B : backend n) (HB : BackendOk B) (H : list bytes → arr n)
    (V : Type) (enc : V → res bytes) (dec : bytes → res V), 0 < n → codec_ok enc dec →
  ∀ st lg hs, rhist B H enc dec st lg hs → whist B H enc dec st lg hs.
Proof. intros n B HB H V enc dec Hn Hc. exact (rhist_whist B H enc dec). Qed.
Print Assumptions C51_extends_removal_histories.
Example C51_extends_case : whist RB toy idc idc (q4 RB) (lg4 RB) (hs4 RB).
Proof. apply (C51_extends_removal_histories 2 RB _ toy _ idc idc ltac:(lia) idc_ok). exact rocks_scenario2. Qed.
