(** * Panics
    Statements only; see PropsHist.v for the conventions.  [in_range] (Sane.v): the split index of a branch is at most
    8n; [rough] (Sane.v): any sequence of calls, removals, failures, crashes, restarts and lost nodes, in which others
    also write nodes of any kind that are in range; [wild] (Wild.v): the same without the latter. *)
From Coq Require Import Strings.Byte NArith.
From stdpp Require Import prelude countable gmap sorting strings.
From Verif Require Import Model Bits Spec Logic Hist Claims Machine MachineTotal Wild Sane SaneBuild Scenario Refuted Scenario6 Scenario8.

Local Open Scope nat_scope.

(** C91: no call panics or runs forever, whatever the hash function, also if the [i]-th database operation fails. *)
Theorem C91_no_panic :
  ∀ (n : nat) (B : backend n) (HB : BackendOk B) (H : list bytes → arr n)
    (V : Type) (enc : V → res bytes) (dec : bytes → res V), 0 < n → codec_ok enc dec →
  ∀ st c i, rough B H enc dec st →
  (out B H (exec enc dec c) st = ROk tt ∨ ∃ er, out B H (exec enc dec c) st = RErr er) ∧
  ((run_fault B H i (exec enc dec c) st).1 = ROk tt ∨ ∃ er, (run_fault B H i (exec enc dec c) st).1 = RErr er).
Proof. intros n B HB H V enc dec Hn Hc. exact (rough_no_panic B H enc dec Hc Hn). Qed.
Print Assumptions C91_no_panic.
(** A branch whose children are itself. *)
Notation HB := (hash_db 2). Notation RB := (rocks_db 2).
Definition loop (B : backend 2) : b_st B := b_flush B (b_put B (b_init B) KX (Node 1 (VBranch 2 KX KX 16 K1))).
Example C91_no_panic_case :
  (∃ er, out RB toy (exec idc idc (CInsert 17 (Some KX) [K2; K1] [v1; v2])) (loop RB) = RErr er) ∧
  (∃ er, out HB toy (exec idc idc (CGetOne 17 KX K1)) (loop HB) = RErr er).
Proof.
  split.
  - assert (rough RB toy idc idc (loop RB)) as Hr by (apply rough_plant; [apply rough_init|cbn; lia]).
    destruct (C91_no_panic 2 RB _ toy _ idc idc (Nat.lt_0_succ 1) idc_ok _ (CInsert 17 (Some KX) [K2; K1] [v1; v2]) 0 Hr) as [[Ho|He] _]; [|exact He].
    vm_compute in Ho. discriminate Ho.
  - assert (rough HB toy idc idc (loop HB)) as Hr by (apply rough_plant; [apply rough_init|cbn; lia]).
    destruct (C91_no_panic 2 HB _ toy _ idc idc (Nat.lt_0_succ 1) idc_ok _ (CGetOne 17 KX K1) 0 Hr) as [[Ho|He] _]; [|exact He].
    vm_compute in Ho. discriminate Ho.
Qed.

(** C91: removals of anything. *)
Theorem C91_remove :
  ∀ (n : nat) (B : backend n) (HB : BackendOk B) (H : list bytes → arr n)
    (V : Type) (enc : V → res bytes) (dec : bytes → res V), 0 < n → codec_ok enc dec →
  ∀ st fuel r, rough B H enc dec st → out B H (remove fuel r) st ≠ RPanic.
Proof. intros n B HB H V enc dec Hn Hc. exact (rough_remove_no_panic B H enc dec Hc Hn). Qed.
Print Assumptions C91_remove.
Example C91_remove_case : out RB toy (remove 9 KX) (loop RB) = ROk tt.
Proof.
  assert (rough RB toy idc idc (loop RB)) as Hr by (apply rough_plant; [apply rough_init|cbn; lia]).
  pose proof (C91_remove 2 RB _ toy _ idc idc (Nat.lt_0_succ 1) idc_ok _ 9 KX Hr) as Ho.
  revert Ho. vm_compute. done.
Qed.

(** C91: and only split indices out of range make calls panic: a database is safe, now and after the next
    [batch_write], if and only if it has none. *)
Theorem C91_exact :
  ∀ (n : nat) (B : backend n) (HB : BackendOk B) (H : list bytes → arr n)
    (V : Type) (enc : V → res bytes) (dec : bytes → res V), 0 < n → codec_ok enc dec →
  ∀ st, ((∀ l nd, b_vis B st !! l = Some nd → in_range nd) ∧ (∀ l nd, b_vis B (b_flush B st) !! l = Some nd → in_range nd)) ↔
    (∀ c, out B H (exec enc dec c) st ≠ RPanic ∧ out B H (exec enc dec c) (b_flush B st) ≠ RPanic).
Proof. intros n B HB H V enc dec Hn Hc. exact (panic_exact B H enc dec Hc Hn). Qed.
Print Assumptions C91_exact.
(** 16 is in range and 17 is not. *)
Example C91_exact_case :
  (∀ c : call 2 bytes, out HB toy (exec idc idc c) (loop HB) ≠ RPanic) ∧
  ¬ (∀ c : call 2 bytes, out HB toy (exec idc idc c) (b_put HB (b_init HB) KX (Node 1 (VBranch 2 KX KX 17 K1))) ≠ RPanic ∧
       out HB toy (exec idc idc c) (b_flush HB (b_put HB (b_init HB) KX (Node 1 (VBranch 2 KX KX 17 K1)))) ≠ RPanic).
Proof.
  split.
  - assert (∀ l nd, b_vis HB (loop HB) !! l = Some nd → in_range nd) as Hr.
    { intros l nd. change (b_vis HB (loop HB)) with (<[KX := Node 1 (VBranch 2 KX KX 16 K1)]> (∅ : gmap (arr 2) (node 2))).
      rewrite lookup_insert_Some, lookup_empty. intros [[_ <-]|[_ ?]]; [cbn; lia|done]. }
    apply (C91_exact 2 HB _ toy _ idc idc (Nat.lt_0_succ 1) idc_ok (loop HB)). split; exact Hr.
  - intros Hc. apply (C91_exact 2 HB _ toy _ idc idc (Nat.lt_0_succ 1) idc_ok) in Hc as [Hv _].
    specialize (Hv KX (Node 1 (VBranch 2 KX KX 17 K1)) (lookup_insert _ _ _)). cbn in Hv. lia.
Qed.

(** C46 for every hash function, with whatever collisions. *)
Theorem C46_any_hash :
  ∀ (n : nat) (B : backend n) (HB : BackendOk B) (H : list bytes → arr n)
    (V : Type) (enc : V → res bytes) (dec : bytes → res V), 0 < n → codec_ok enc dec →
  ∀ st lg c i, wild B H enc dec st lg →
  (out B H (exec enc dec c) st = ROk tt ∨ ∃ er, out B H (exec enc dec c) st = RErr er) ∧
  ((run_fault B H i (exec enc dec c) st).1 = ROk tt ∨ ∃ er, (run_fault B H i (exec enc dec c) st).1 = RErr er).
Proof. intros n B HB H V enc dec Hn Hc. exact (wild_never_panics B H enc dec Hc Hn). Qed.
Print Assumptions C46_any_hash.
(** All hashes are equal: after one insertion the only node is a branch whose children are itself. *)
Definition dull (cs : list bytes) : arr 2 := KX.
Example C46_any_hash_case :
  ∃ er, out HB dull (exec idc idc (CGetOne 17 KX K1)) (fin HB dull (exec idc idc (CInsert 17 None [K1; K2] [v1; v2])) (b_init HB)) = RErr er.
Proof.
  set (c0 := CInsert 17 None [K1; K2] [v1; v2]).
  assert (wild HB dull idc idc (fin HB dull (exec idc idc c0) (b_init HB)) ([] ++ hlog HB dull (exec idc idc c0) (b_init HB))) as Hw.
  { apply wild_call; [apply wild_init|]. apply run_in_states. }
  destruct (C46_any_hash 2 HB _ dull _ idc idc (Nat.lt_0_succ 1) idc_ok _ _ (CGetOne 17 KX K1) 0 Hw) as [[Ho|He] _]; [|exact He].
  vm_compute in Ho. discriminate Ho.
Qed.

(** C91 on machine integers: a build without overflow checks does not panic either, also if the counters of the
    nodes others have written are about to overflow.  [call_small] (SaneBuild.v): the arguments of the call fit into
    the machine; [limit_of] (MachineTotal.v): its depth limit. *)
Theorem C91_release :
  ∀ (M : build) (n : nat) (B : backend n) (HB : BackendOk B) (H : list bytes → arr n)
    (V : Type) (enc : V → res bytes) (dec : bytes → res V), 0 < n → codec_ok enc dec →
  wraps M = true → fits (wptr M) (8 * n) →
  ∀ st c, call_small M c →
  (∀ l nd, b_vis B st !! l = Some nd → Sane.in_range nd) → (∀ l nd, b_vis B (b_flush B st) !! l = Some nd → Sane.in_range nd) →
  out B H (m_exec M enc dec c) st ≠ RPanic ∧
  (∀ st', st' ∈ states B H (m_exec M enc dec c) st → (∀ l nd, b_vis B st' !! l = Some nd → Sane.in_range nd) ∧
     (∀ l nd, b_vis B (b_flush B st') !! l = Some nd → Sane.in_range nd)) ∧
  (∀ i, (run_fault B H i (m_exec M enc dec c) st).1 ≠ RPanic) ∧
  (fits (wptr M) (limit_of c + 1) →
     (out B H (m_exec M enc dec c) st = ROk tt ∨ ∃ er, out B H (m_exec M enc dec c) st = RErr er) ∧
     ∀ i, (run_fault B H i (m_exec M enc dec c) st).1 = ROk tt ∨ ∃ er, (run_fault B H i (m_exec M enc dec c) st).1 = RErr er).
Proof. intros M n B HB H V enc dec Hn Hc HM Hb. exact (build_no_panic_range M HM Hn Hb enc dec Hc B H). Qed.
Print Assumptions C91_release.
(** A foreign branch with the largest reference count there is: the checking build panics, the other does not. *)
Definition full : b_st HB := b_put HB (b_init HB) KX (Node 3 (VBranch 2 KX KX 15 K1)).
Example C91_release_case :
  out HB toy (m_exec (tiny false) idc idc (CInsertOne 17 (Some KX) K1 v1)) full = RPanic ∧
  out HB toy (m_exec (tiny true) idc idc (CInsertOne 17 (Some KX) K1 v1)) full ≠ RPanic.
Proof.
  split; [vm_compute; reflexivity|].
  assert (∀ l nd, b_vis HB full !! l = Some nd → Sane.in_range nd) as Hr.
  { intros l nd. change (b_vis HB full) with (<[KX := Node 3 (VBranch 2 KX KX 15 K1)]> (∅ : gmap (arr 2) (node 2))).
    rewrite lookup_insert_Some, lookup_empty. intros [[_ <-]|[_ ?]]; [cbn; lia|done]. }
  assert (fits (wptr (tiny true)) (8 * 2)) as Hb by (apply fitsb_sound; vm_compute; reflexivity).
  assert (call_small (tiny true) (CInsertOne 17 (Some KX) K1 v1 : call 2 bytes)) as Hs
    by (split; apply fitsb_sound; vm_compute; reflexivity).
  exact (proj1 (C91_release (tiny true) 2 HB _ toy _ idc idc (Nat.lt_0_succ 1) idc_ok eq_refl Hb full _ Hs Hr Hr)).
Qed.

(** C26 on machine integers, of builds with and without overflow checks: every call stops after a bounded number of
    fetches whatever the database contains, if the depth limit is not the largest number.  [width_of] (MachineTotal.v):
    the number of keys of a call. *)
Theorem C26_machine :
  ∀ (M : build) (n : nat) (V : Type) (enc : V → res bytes) (dec : bytes → res V) (B : backend n) (H : list bytes → arr n)
    st (c : call n V), fits (wptr M) (limit_of c + 1) →
  out B H (m_exec M enc dec c) st ≠ RFuel ∧ fetches B H (m_exec M enc dec c) st ≤ 1 + 2 * width_of c * (limit_of c + 3).
Proof. intros M n V enc dec. exact (m_bounded M enc dec). Qed.
Print Assumptions C26_machine.
(** On numbers of five bits: the limit 30 stops the read of a branch whose children are itself; with the limit 31 the
    depth wraps around and the read goes beyond any bound on the depth, or panics if overflows are checked. *)
Definition narrow (w : bool) : build := Bld 64 32 5 w (λ d, d).
Example C26_machine_case :
  fits (wptr (narrow true)) (limit_of (CGetOne 30 KX K1 : call 2 bytes) + 1) ∧
  (∃ er, out HB toy (m_exec (narrow true) idc idc (CGetOne 30 KX K1)) full = RErr er) ∧
  out HB toy (m_exec (narrow true) idc idc (CGetOne 31 KX K1)) full = RFuel ∧
  out HB toy (m_exec (narrow false) idc idc (CGetOne 31 KX K1)) full = RPanic.
Proof. split; [apply fitsb_sound; vm_compute; reflexivity|]. split; [eexists|split]; vm_compute; reflexivity. Qed.
