(** * Machine integers
    Statements only; see PropsHist.v for the conventions.  A [build] gives the
    widths of the integers and says whether overflows wrap (release builds) or
    panic (debug builds); programs with [m_] are the functions of the crate
    with these integers (Machine.v). *)
From Coq Require Import Strings.Byte NArith.
From stdpp Require Import prelude countable gmap sorting strings.
From Verif Require Import Model Bits Spec Logic Safe Claims Live Struct Scenario Machine Counts MachineProofs Scenario6.

Local Open Scope nat_scope.

Notation HB := (hash_db 2). Notation RB := (rocks_db 2).

(** C74: whatever the sequence of calls, failures, removals and restarts, the crate with machine integers has the
    outcomes and the databases of the crate with unbounded ones, if fewer than 2^[wref] keys are passed and nodes
    written in all and fewer than 2^[wcnt] nodes in one call. *)
Theorem C74_sessions_same :
  ∀ (M : build) (n : nat) (B : backend n) (HB : BackendOk B)
    (H : list bytes → arr n) (V : Type) (enc : V → res bytes) (dec : bytes → res V), 0 < n → fits (wptr M) (8 * n) →
  ∀ os, no_collision H (session_log B H enc dec (b_init B) os) →
  session_fits B H enc dec M (b_init B) os →
  fits (wref M) (1 + session_keys os) → fits (wref M) (1 + session_writes B H enc dec (b_init B) os) →
  session B H (m_exec M enc dec) (b_init B) os = session B H (exec enc dec) (b_init B) os.
Proof. intros M n B HB H V enc dec Hn Hb. exact (session_same M Hn B H enc dec Hb). Qed.
Print Assumptions C74_sessions_same.
Example C74_sessions_case w :
  session RB toy (m_exec (usual w) idc idc) (b_init _) (day day_root) = session RB toy (exec idc idc) (b_init _) (day day_root).
Proof. exact (C74_sessions_same (usual w) 2 RB _ toy _ idc idc (Nat.lt_0_succ 1) ltac:(by apply fitsb_sound) (day day_root) day_nc (day_fits w) (day_keys w) (day_writes w)). Qed.
Example C74_sessions_outcomes :
  fst <$> session RB toy (exec idc idc) (b_init _) (day day_root) =
  [ROk tt; RErr "database failure"; ROk tt; ROk tt; ROk tt; ROk tt; ROk tt].
Proof. vm_compute. reflexivity. Qed.

(** C74: the root or error of an insertion, every state on the way, every node fetched, every failure. *)
Theorem C74_insert_same :
  ∀ (M : build) (n : nat) (B : backend n) (HB : BackendOk B)
    (H : list bytes → arr n) (V : Type) (enc : V → res bytes) (dec : bytes → res V), 0 < n → fits (wptr M) (8 * n) →
  ∀ st lg K W D prev ks vs, used B H enc dec st lg K W →
  no_collision H (lg ++ hlog B H (insert enc D prev ks vs) st) →
  fits (wptr M) (D + 1) → fits (wptr M) (length ks) →
  fits (wref M) (1 + K + length ks) → fits (wref M) (W + writes B H (insert enc D prev ks vs) st + 1) →
  fits (wcnt M) (writes B H (insert enc D prev ks vs) st) → fits (wptr M) (writes B H (insert enc D prev ks vs) st) →
  alike B H (m_insert M enc D prev ks vs) (insert enc D prev ks vs) st.
Proof. intros M n B HB H V enc dec Hn Hb. exact (used_insert M Hn B H enc dec Hb). Qed.
Print Assumptions C74_insert_same.
Example C74_insert_case w : out HB toy (m_insert (usual w) idc 17 (Some day_root) [K5; K4] [v1; v2]) ms2 = out HB toy m3 ms2.
Proof.
  destruct (C74_insert_same (usual w) 2 HB _ toy _ idc idc (Nat.lt_0_succ 1) ltac:(by apply fitsb_sound) ms2 mlg 5 mw 17 (Some day_root) [K5; K4] [v1; v2] used_case mlg_nc2) as [E _];
    try (apply fitsb_sound; destruct w; vm_compute; reflexivity).
  unfold out. by rewrite E.
Qed.
Example C74_insert_result : is_ok (out HB toy m3 ms2) = true ∧ mw = 17.
Proof. vm_compute. done. Qed.

(** C74, for [insert_one]. *)
Theorem C74_insert_one_same :
  ∀ (M : build) (n : nat) (B : backend n) (HB : BackendOk B)
    (H : list bytes → arr n) (V : Type) (enc : V → res bytes) (dec : bytes → res V), 0 < n → fits (wptr M) (8 * n) →
  ∀ st lg K W D prev k v, used B H enc dec st lg K W →
  no_collision H (lg ++ hlog B H (insert_one enc D prev k v) st) → fits (wptr M) (D + 1) →
  fits (wref M) (2 + K) → fits (wref M) (W + writes B H (insert_one enc D prev k v) st + 1) →
  fits (wcnt M) (writes B H (insert_one enc D prev k v) st) → fits (wptr M) (writes B H (insert_one enc D prev k v) st) →
  alike B H (m_insert_one M enc D prev k v) (insert_one enc D prev k v) st.
Proof. intros M n B HB H V enc dec Hn Hb. exact (used_insert_one M Hn B H enc dec Hb). Qed.
Print Assumptions C74_insert_one_same.
Example C74_insert_one_case w :
  out HB toy (m_insert_one (usual w) idc 17 (Some day_root) K5 v1) ms2 = out HB toy (insert_one idc 17 (Some day_root) K5 v1) ms2.
Proof.
  destruct (C74_insert_one_same (usual w) 2 HB _ toy _ idc idc (Nat.lt_0_succ 1) ltac:(by apply fitsb_sound) ms2 mlg 5 mw 17 (Some day_root) K5 v1 used_case) as [E _];
    try (apply fitsb_sound; destruct w; vm_compute; reflexivity).
  - apply no_collision_b_sound. vm_compute. reflexivity.
  - unfold out. by rewrite E.
Qed.

(** C74: reads and proofs, in any database whatever. *)
Theorem C74_reads_same :
  ∀ (M : build) (n : nat) (B : backend n) (HB : BackendOk B)
    (H : list bytes → arr n) (V : Type) (enc : V → res bytes) (dec : bytes → res V), 0 < n → fits (wptr M) (8 * n) →
  ∀ D r st, fits (wptr M) (D + 1) →
  (∀ ks, fits (wptr M) (length ks) → alike B H (m_get M dec D r ks) (get dec D r ks) st) ∧
  (∀ k, alike B H (m_get_one M dec D r k) (get_one dec D r k) st) ∧
  (∀ k, fits (wptr M - 1) (deque_cap M D * n) → fits (wptr M - 1) (D * (n + 1)) →
     alike B H (m_generate_inclusion_proof M D r k) (generate_inclusion_proof D r k) st).
Proof. intros M n B HB H V enc dec Hn Hb. exact (reads_alike M Hn B H dec Hb). Qed.
Print Assumptions C74_reads_same.
Example C74_reads_case w : out HB toy (m_get_one (usual w) idc 17 day_root K2) ms2 = ROk (Some v2).
Proof.
  destruct (proj1 (proj2 (C74_reads_same (usual w) 2 HB _ toy _ idc idc (Nat.lt_0_succ 1) ltac:(by apply fitsb_sound) 17 day_root ms2 ltac:(destruct w; by apply fitsb_sound))) K2) as [E _].
  unfold out. rewrite E. vm_compute. reflexivity.
Qed.

(** C74: why the numbers stay in range.  In any database reached by any calls on any roots, complete or not, a
    reference count is at most the number of nodes written and the key count of a branch at most one more than the
    number of keys passed to insertions. *)
Theorem C74_numbers_bounded :
  ∀ (n : nat) (B : backend n) (HB : BackendOk B)
    (H : list bytes → arr n) (V : Type) (enc : V → res bytes) (dec : bytes → res V), 0 < n →
  ∀ st lg K W, used B H enc dec st lg K W → no_collision H lg → ∀ l nd, b_vis B st !! l = Some nd →
  refs nd ≤ W ∧ match var nd with VBranch c _ _ _ _ => c ≤ 1 + K | _ => True end.
Proof. intros n B HB H V enc dec Hn. exact (numbers_bounded Hn B H enc dec). Qed.
Print Assumptions C74_numbers_bounded.
Example C74_numbers_case nd : b_vis HB ms2 !! day_root = Some nd → refs nd ≤ 17.
Proof. exact (λ Hl, proj1 (C74_numbers_bounded 2 HB _ toy _ idc idc (Nat.lt_0_succ 1) ms2 mlg 5 17 used_case mlg_nc day_root nd Hl)). Qed.
Example C74_numbers_present : is_Some (b_vis HB ms2 !! day_root).
Proof. vm_compute. eauto. Qed.
(** The conditions are needed.  With two-bit reference counters the fourth
    insertion of the same pair panics in a debug build, and leaves counts of
    zero in a release build: the next removal frees what four users hold. *)
Example C74_needed_debug :
  fst <$> session HB toy (m_exec (tiny false) idc idc) (b_init _) again = [ROk tt; ROk tt; ROk tt; RPanic].
Proof. vm_compute. reflexivity. Qed.
Example C74_needed_release :
  map (λ x, map (λ p, refs p.2) (map_to_list (b_vis HB x.2))) (session HB toy (m_exec (tiny true) idc idc) (b_init _) again) =
  [[1; 1]; [2; 2]; [3; 3]; [0; 0]].
Proof. vm_compute. reflexivity. Qed.

(** C75: reads work up to the largest limit; proofs need room for [D] entries, whatever the size of the tree. *)
Theorem C75_live_room :
  ∀ (M : build) (n : nat) (B : backend n) (HB : BackendOk B)
    (H : list bytes → arr n) (V : Type) (enc : V → res bytes) (dec : bytes → res V), 0 < n → codec_ok enc dec → fits (wptr M) (8 * n) →
  ∀ st lg r Mp D, live B H enc dec st lg r Mp → no_collision H lg → 8 * n + 1 ≤ D → fits (wptr M) (D + 1) →
  (∀ k, out B H (m_get_one M dec D r k) st = ROk (Mp !! k)) ∧
  (¬ fits (wptr M - 1) (D * (n + 1)) → ∀ k, out B H (m_generate_inclusion_proof M D r k) st = RPanic) ∧
  ((∀ d, deque_cap M d ≤ 2 * (d + 1)) → fits (wptr M - 1) (2 * (D + 1) * (n + 1)) → ∀ k,
     match Mp !! k with
     | Some v => ∃ proof, out B H (m_generate_inclusion_proof M D r k) st = ROk proof ∧
         ∀ (B' : backend n) (st' : b_st B'), out B' H (verify_inclusion_proof enc r k v proof) st' = ROk tt
     | None => ∃ er, out B H (m_generate_inclusion_proof M D r k) st = RErr er
     end).
Proof. intros M n B HB H V enc dec Hn Hc Hb. exact (live_machine M Hn B H enc dec Hc Hb). Qed.
Print Assumptions C75_live_room.
Example C75_small_limit w : ∃ proof, out HB toy (m_generate_inclusion_proof (usual w) 1000 (r2 HB) K3) (s3 HB) = ROk proof.
Proof.
  destruct (C75_live_room (usual w) 2 HB _ toy _ idc idc (Nat.lt_0_succ 1) idc_ok ltac:(by apply fitsb_sound)
    (s3 HB) (lg3 HB) (r2 HB) M2 1000) as (_ & _ & Hp).
  - exists (hs2 HB). split; [left; apply hash_scenario|left].
  - exact hash_scenario_nc.
  - lia.
  - destruct w; by apply fitsb_sound.
  - destruct (Hp ltac:(intros d; cbn; lia) ltac:(destruct w; by apply fitsb_sound) K3) as (p & Ep & _). by exists p.
Qed.

(** C75, on a 64-bit machine: with a limit of usize::MAX - 1, a key that is in the tree has no proof: the call panics. *)
Theorem C75_refuted :
  ∀ w, ∃ (D : nat) (st : b_st HB) (lg : list (list bytes)) (r k : arr 2) (v : bytes) (Mp : gmap (arr 2) bytes),
  live HB toy idc idc st lg r Mp ∧ no_collision toy lg ∧ Mp !! k = Some v ∧
  fits 64 (D + 1) ∧ out HB toy (m_get_one (usual w) idc D r k) st = ROk (Some v) ∧
  out HB toy (m_generate_inclusion_proof (usual w) D r k) st = RPanic.
Proof.  exact room_refuted. Qed.
Print Assumptions C75_refuted.
