(** * The two backends under the same calls
    Statements only; see PropsHist.v for the conventions. *)
From Coq Require Import Strings.Byte NArith.
From stdpp Require Import prelude countable gmap sorting strings.
From Verif Require Import Model Bits Spec Logic Safe Claims Live Regrow Weak Cost Outcome Scenario Backends.

Local Open Scope nat_scope.

Notation HB := (hash_db 2). Notation RB := (rocks_db 2).

(** C73: the databases are equal, node by node and count by count.  Insertions of pairs that a live tree
    already has are excluded; with them it is false: [C73_refuted]. *)
Theorem C73_same_store_partial :
  ∀ (n : nat) (B1 B2 : backend n) (HB1 : BackendOk B1) (HB2 : BackendOk B2)
    (H : list bytes → arr n) (V : Type) (enc : V → res bytes) (dec : bytes → res V), 0 < n → codec_ok enc dec →
  ∀ st1 st2 lg1 lg2 hs, lockstep B1 B2 H enc st1 st2 lg1 lg2 hs →
  no_collision H lg1 → no_collision H lg2 →
  b_vis B1 st1 = b_vis B2 st2 ∧
  ∀ r M hs', hs ≡ₚ (r, M) :: hs' →
    out B1 H (remove_prog B1 st1 r) st1 = ROk tt ∧ out B2 H (remove_prog B2 st2 r) st2 = ROk tt ∧
    b_vis B1 (fin B1 H (remove_prog B1 st1 r) st1) = b_vis B2 (fin B2 H (remove_prog B2 st2 r) st2).
Proof. intros n B1 B2 HB1 HB2 H V enc dec Hn Hc. exact (same_store_removals Hn B1 B2 H enc dec Hc). Qed.
Print Assumptions C73_same_store_partial.
Example C73_case : b_vis HB (q4 HB) = b_vis RB (b_drop RB y4).
Proof.
  exact (proj1 (C73_same_store_partial 2 HB RB _ _ toy _ idc idc (Nat.lt_0_succ 1) idc_ok _ _ _ _ _ lockstep_case (proj1 lockstep_nc) (proj2 lockstep_nc))).
Qed.

(** C73: reads and proofs at any root, in use or not, with any limit. *)
Theorem C73_same_reads_partial :
  ∀ (n : nat) (B1 B2 : backend n) (HB1 : BackendOk B1) (HB2 : BackendOk B2)
    (H : list bytes → arr n) (V : Type) (enc : V → res bytes) (dec : bytes → res V), 0 < n → codec_ok enc dec →
  ∀ st1 st2 lg1 lg2 hs, lockstep B1 B2 H enc st1 st2 lg1 lg2 hs →
  no_collision H lg1 → no_collision H lg2 → ∀ D r,
  (∀ ks, out B1 H (get dec D r ks) st1 = out B2 H (get dec D r ks) st2) ∧
  (∀ k, out B1 H (get_one dec D r k) st1 = out B2 H (get_one dec D r k) st2) ∧
  (∀ k, out B1 H (generate_inclusion_proof D r k) st1 = out B2 H (generate_inclusion_proof D r k) st2).
Proof. intros n B1 B2 HB1 HB2 H V enc dec Hn Hc. exact (same_reads Hn B1 B2 H enc dec Hc). Qed.
Print Assumptions C73_same_reads_partial.
Example C73_reads_case : (* [r1] has been removed *)
  out HB toy (get idc 3 (r1 HB) [K4; K1]) (q4 HB) = out RB toy (get idc 3 (r1 HB) [K4; K1]) (b_drop RB y4).
Proof.
  exact (proj1 (C73_same_reads_partial 2 HB RB _ _ toy _ idc idc (Nat.lt_0_succ 1) idc_ok _ _ _ _ _ lockstep_case (proj1 lockstep_nc) (proj2 lockstep_nc) 3 (r1 HB)) [K4; K1]).
Qed.

(** C73: the root or the error of the next insertion, whether or not its pairs are new. *)
Theorem C73_same_inserts_partial :
  ∀ (n : nat) (B1 B2 : backend n) (HB1 : BackendOk B1) (HB2 : BackendOk B2)
    (H : list bytes → arr n) (V : Type) (enc : V → res bytes) (dec : bytes → res V), 0 < n → codec_ok enc dec →
  ∀ st1 st2 lg1 lg2 hs D prev M ks vs, lockstep B1 B2 H enc st1 st2 lg1 lg2 hs →
  prev_holds hs prev M → mild M ks → (∀ v, v ∈ vs → ∃ e, enc v = Ok e) →
  no_collision H (lg1 ++ hlog B1 H (insert enc D prev ks vs) st1) →
  no_collision H (lg2 ++ hlog B2 H (insert enc D prev ks vs) st2) →
  out B1 H (insert enc D prev ks vs) st1 = out B2 H (insert enc D prev ks vs) st2.
Proof. intros n B1 B2 HB1 HB2 H V enc dec Hn Hc. exact (same_writes Hn B1 B2 H enc dec Hc). Qed.
Print Assumptions C73_same_inserts_partial.
Example C73_inserts_case : (* too deep for the limit *)
  out HB toy (insert idc 1 (Some (r4 HB)) [K3; K1] [v1; v2]) (q4 HB) =
  out RB toy (insert idc 1 (Some (r4 HB)) [K3; K1] [v1; v2]) (b_drop RB y4).
Proof.
  eapply (C73_same_inserts_partial 2 HB RB _ _ toy _ idc idc (Nat.lt_0_succ 1) idc_ok); [exact lockstep_case|left| | | |].
  - apply hazard_b_mild. vm_compute. reflexivity.
  - intros v _. by eexists.
  - apply no_collision_b_sound. vm_compute. reflexivity.
  - apply no_collision_b_sound. vm_compute. reflexivity.
Qed.
Example C73_inserts_error : out HB toy (insert idc 1 (Some (r4 HB)) [K3; K1] [v1; v2]) (q4 HB) = RErr "Depth of merkle tree exceeded".
Proof. vm_compute. reflexivity. Qed.

(** C73: a root in use in both databases, whatever else each of them has been through. *)
Theorem C73_live_roots :
  ∀ (n : nat) (B1 B2 : backend n) (HB1 : BackendOk B1) (HB2 : BackendOk B2)
    (H : list bytes → arr n) (V : Type) (enc : V → res bytes) (dec : bytes → res V), 0 < n → codec_ok enc dec →
  ∀ st1 st2 lg1 lg2 r M, live B1 H enc dec st1 lg1 r M → live B2 H enc dec st2 lg2 r M →
  no_collision H lg1 → no_collision H lg2 → ∀ D,
  (∀ ks, out B1 H (get dec D r ks) st1 = out B2 H (get dec D r ks) st2) ∧
  (∀ k, out B1 H (get_one dec D r k) st1 = out B2 H (get_one dec D r k) st2) ∧
  (∀ k, out B1 H (generate_inclusion_proof D r k) st1 = out B2 H (generate_inclusion_proof D r k) st2).
Proof. intros n B1 B2 HB1 HB2 H V enc dec Hn Hc. exact (live_reads_agree Hn B1 B2 H enc dec Hc). Qed.
Print Assumptions C73_live_roots.
Example C73_live_case : (* the second database has only the first two insertions *)
  out HB toy (get_one idc 2 (r2 HB) K3) (q4 HB) = out RB toy (get_one idc 2 (r2 HB) K3) (s3 RB).
Proof.
  assert (r2 HB = r2 RB) as Hr by (vm_compute; reflexivity).
  refine (proj1 (proj2 (C73_live_roots 2 HB RB _ _ toy _ idc idc (Nat.lt_0_succ 1) idc_ok (q4 HB) (s3 RB) (lg4 HB) (lg3 RB) (r2 HB) M2 _ _ hash_scenario2_nc rocks_scenario_nc 2)) K3).
  - exists (hs4 HB). split; [right; apply rhist_whist, hash_scenario2|right; left].
  - rewrite Hr. exists (hs2 RB). split; [left; apply rocks_scenario|left].
Qed.

(** C73, when a pair is inserted again onto the tree that has it and both roots are removed: one database is
    empty, the other still serves the value. *)
Theorem C73_refuted :
  ∃ (k : arr 2) (v : bytes) (r : arr 2),
  (∀ B : backend 2, B = HB ∨ B = RB →
     let first := insert idc 17 None [k] [v] in let again := insert idc 17 (Some r) [k] [v] in
     out B toy first (b_init B) = ROk r ∧ out B toy again (again1 B k v) = ROk r ∧
     no_collision toy (hlog B toy first (b_init B) ++ hlog B toy again (again1 B k v))) ∧
  out HB toy (get_one idc 17 r k) (again4 HB k v r) = ROk (Some v) ∧
  out RB toy (get_one idc 17 r k) (again4 RB k v r) = ROk None.
Proof.  exact backends_differ. Qed.
Print Assumptions C73_refuted.
