(** * All layers together
    Statements only; see PropsHist.v for the conventions.  [brun] executes over
    the bytes stored in RocksDB with bincode (Codec.v), programs with [m_] use
    machine integers (Machine.v); [ser] serializes a database of the model. *)
From Coq Require Import Strings.Byte NArith.
From stdpp Require Import prelude countable gmap sorting strings.
From Verif Require Import Model Bits Spec Logic Safe Claims Live Struct Scenario Codec Bytes Machine Counts MachineProofs Deploy Scenario6.

Local Open Scope nat_scope.

Notation RB := (rocks_db 2).

(** C76: outcomes and stored bytes of any sequence of operations. *)
Theorem C76_sessions :
  ∀ (M : build) (n : nat) (H : list bytes → arr n) (V : Type) (enc : V → res bytes) (dec : bytes → res V), 0 < n →
    fits (wptr M) (8 * n) → (wref M ≤ 64)%N → (wptr M ≤ 64)%N →
  ∀ os, no_collision H (session_log (rocks_db n) H enc dec (b_init (rocks_db n)) os) →
  short (session_log (rocks_db n) H enc dec (b_init (rocks_db n)) os) →
  session_fits (rocks_db n) H enc dec M (b_init (rocks_db n)) os →
  fits (wref M) (1 + session_keys os) → fits (wref M) (1 + session_writes (rocks_db n) H enc dec (b_init (rocks_db n)) os) →
  bsession H (m_exec M enc dec) binit os = in_bytes <$> session (rocks_db n) H (exec enc dec) (b_init (rocks_db n)) os.
Proof. intros M n H V enc dec Hn Hb Hr Hp. exact (bsession_same M Hn H enc dec Hb Hr Hp). Qed.
Print Assumptions C76_sessions.
Example C76_sessions_case w :
  bsession toy (m_exec (usual w) idc idc) binit (day day_root) =
  in_bytes <$> session RB toy (exec idc idc) (b_init _) (day day_root).
Proof. exact (C76_sessions (usual w) 2 toy _ idc idc (Nat.lt_0_succ 1) ltac:(by apply fitsb_sound) ltac:(done) ltac:(done) (day day_root) day_nc day_short (day_fits w) (day_keys w) (day_writes w)). Qed.
Example C76_sessions_outcomes w :
  fst <$> bsession toy (m_exec (usual w) idc idc) binit (day day_root) =
  [ROk tt; RErr "database failure"; ROk tt; ROk tt; ROk tt; ROk tt; ROk tt].
Proof. rewrite C76_sessions_case. vm_compute. reflexivity. Qed.

(** C76: reads and proofs over the stored bytes. *)
Theorem C76_reads :
  ∀ (M : build) (n : nat) (H : list bytes → arr n) (V : Type) (enc : V → res bytes) (dec : bytes → res V), 0 < n → codec_ok enc dec →
    fits (wptr M) (8 * n) → (wref M ≤ 64)%N → (wptr M ≤ 64)%N →
  ∀ st lg K W r Mp D, used (rocks_db n) H enc dec st lg K W → live (rocks_db n) H enc dec st lg r Mp →
  no_collision H lg → short lg → fits (wref M) (1 + K) → fits (wref M) W → 8 * n + 1 ≤ D → fits (wptr M) (D + 1) →
  (∀ k, brun H (m_get_one M dec D r k) (ser st) = (ROk (Mp !! k), ser st)) ∧
  (∀ ks, mild_get Mp ks → fits (wptr M) (length ks) →
     ∃ lm, brun H (m_get M dec D r ks) (ser st) = (ROk lm, ser st) ∧
       ∀ k, lm !! k = if decide (k ∈ ks) then Some (Mp !! k) else None) ∧
  (∀ k v, fits (wptr M - 1) (deque_cap M D * n) → fits (wptr M - 1) (D * (n + 1)) → Mp !! k = Some v →
     ∃ proof, brun H (m_generate_inclusion_proof M D r k) (ser st) = (ROk proof, ser st) ∧
       ∀ (B' : backend n) (st' : b_st B'), out B' H (verify_inclusion_proof enc r k v proof) st' = ROk tt).
Proof. intros M n H V enc dec Hn Hc Hb Hr Hp. exact (λ st lg K W r Mp D, bytes_live M Hn H enc dec Hb Hr Hp Hc st lg K W r Mp D). Qed.
Print Assumptions C76_reads.
Example C76_reads_case w k : brun toy (m_get_one (usual w) idc 100 (r2 RB) k) (ser (s3 RB)) = (ROk (M2 !! k), ser (s3 RB)).
Proof.
  eapply (C76_reads (usual w) 2 toy _ idc idc (Nat.lt_0_succ 1) idc_ok ltac:(by apply fitsb_sound) ltac:(done) ltac:(done) (s3 RB) (lg3 RB) 6 w3 (r2 RB) M2 100 used_s3); [|exact rocks_scenario_nc|exact lg3_short| | |lia|];
    try (destruct w; apply fitsb_sound; vm_compute; reflexivity).
  exists (hs2 RB). split; [left; apply rocks_scenario|left].
Qed.

(** C76: an insertion over the stored bytes, read back from the bytes it leaves. *)
Theorem C76_insert :
  ∀ (M : build) (n : nat) (H : list bytes → arr n) (V : Type) (enc : V → res bytes) (dec : bytes → res V), 0 < n → codec_ok enc dec →
    fits (wptr M) (8 * n) → (wref M ≤ 64)%N → (wptr M ≤ 64)%N →
  ∀ st lg hs K W r Mp D ks vs, used (rocks_db n) H enc dec st lg K W → hist (rocks_db n) H enc dec st lg hs →
  (r, Mp) ∈ hs → mild Mp ks →
  length ks = length vs → ks ≠ [] → NoDup ks → (∀ v, v ∈ vs → ∃ e, enc v = Ok e) → 8 * n + 1 ≤ D →
  let p := insert enc D (Some r) ks vs in
  no_collision H (lg ++ hlog (rocks_db n) H p st) → short (lg ++ hlog (rocks_db n) H p st) →
  fits (wptr M) (D + 1) → fits (wptr M) (length ks) → fits (wref M) (1 + K + length ks) →
  fits (wref M) (W + writes (rocks_db n) H p st + 1) → fits (wcnt M) (writes (rocks_db n) H p st) →
  fits (wptr M) (writes (rocks_db n) H p st) →
  ∃ r' z, brun H (m_insert M enc D (Some r) ks vs) (ser st) = (ROk r', z) ∧
    ∀ k, brun H (m_get_one M dec D r' k) z = (ROk ((list_to_map (zip ks vs) ∪ Mp) !! k), z).
Proof. intros M n H V enc dec Hn Hc Hb Hr Hp. exact (λ st lg hs K W r Mp D ks vs, bytes_insert M Hn H enc dec Hb Hr Hp Hc st lg hs K W r Mp D ks vs). Qed.
Print Assumptions C76_insert.
Example C76_insert_case w : ∃ r' z, brun toy (m_insert (usual w) idc 100 (Some (r2 RB)) [K4; K5] [v1; v2]) (ser (s3 RB)) = (ROk r', z) ∧
  ∀ k, brun toy (m_get_one (usual w) idc 100 r' k) z = (ROk ((list_to_map (zip [K4; K5] [v1; v2]) ∪ M2) !! k), z).
Proof.
  apply (C76_insert (usual w) 2 toy _ idc idc (Nat.lt_0_succ 1) idc_ok ltac:(by apply fitsb_sound) ltac:(done) ltac:(done) (s3 RB) (lg3 RB) (hs2 RB) 6 w3 (r2 RB) M2 100 [K4; K5] [v1; v2] used_s3 rocks_scenario);
    try (destruct w; apply fitsb_sound; vm_compute; reflexivity).
  - left.
  - apply hazard_b_mild. vm_compute. reflexivity.
  - done.
  - done.
  - apply NoDup_cons. split; [intros Hin%elem_of_list_singleton; discriminate Hin|apply NoDup_singleton].
  - intros v _. by eexists.
  - lia.
  - apply no_collision_b_sound. vm_compute. reflexivity.
  - apply short_b_sound. vm_compute. reflexivity.
Qed.
