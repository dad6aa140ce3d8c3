(** * Properties of insertions, reads and proofs
    Statements only.  [B] is any backend satisfying the laws [BackendOk]
    (Logic.v), in particular [hash_db n] and [rocks_db n]; [H] is any hash
    function; [enc]/[dec] any value codec.  The vocabulary is that of Spec.v.
    After each theorem, [Example]s apply it to the concrete history of
    Scenario.v, so that its hypotheses are seen to be satisfiable. *)
From Coq Require Import Strings.Byte NArith.
From stdpp Require Import prelude countable gmap sorting strings.
From Verif Require Import Model Bits Spec Logic Safe Claims Sim Agree Total Scenario.

Local Open Scope nat_scope.

Notation HB := (hash_db 2). Notation RB := (rocks_db 2).
Ltac nc := apply no_collision_b_sound; vm_compute; reflexivity.
Ltac nd := repeat (apply NoDup_cons; split; [intros Hin; repeat (apply elem_of_cons in Hin as [Hin|Hin]; [discriminate Hin|]); by apply elem_of_nil in Hin|]); apply NoDup_nil_2.

(** C01: insertion without a previous root, in any reachable state. *)
Theorem C01_insert_then_read :
  ∀ (n : nat) (B : backend n) (HB : BackendOk B) (H : list bytes → arr n)
    (V : Type) (enc : V → res bytes) (dec : bytes → res V), 0 < n → codec_ok enc dec →
  ∀ st lg hs D ks vs,
  hist B H enc dec st lg hs → no_collision H (lg ++ hlog B H (insert enc D None ks vs) st) →
  length ks = length vs → ks ≠ [] → NoDup ks → (∀ v, v ∈ vs → ∃ e, enc v = Ok e) →
  ∃ r, out B H (insert enc D None ks vs) st = ROk r ∧
    (∀ i k v, ks !! i = Some k → vs !! i = Some v → ∀ D', 8 * n + 1 ≤ D' →
       out B H (get_one dec D' r k) (fin B H (insert enc D None ks vs) st) = ROk (Some v)) ∧
    (∀ k, k ∉ ks → ∀ D', 8 * n + 1 ≤ D' →
       out B H (get_one dec D' r k) (fin B H (insert enc D None ks vs) st) = ROk None).
Proof. intros n B HB H V enc dec Hn Hc. exact (insert_empty_holds Hn B H enc dec Hc). Qed.
Print Assumptions C01_insert_then_read.
Example C01_case : ∃ r, out RB toy (insert idc 3 None [K5; K1; K4] [v1; v2; v3]) (s3 RB) = ROk r ∧ _ :=
  C01_insert_then_read 2 RB _ toy _ idc idc ltac:(lia) idc_ok (s3 RB) (lg3 RB) (hs2 RB) 3
    [K5; K1; K4] [v1; v2; v3] rocks_scenario ltac:(nc) eq_refl ltac:(done) ltac:(nd) ltac:(intros v _; by exists v).

(** C02 *)
Theorem C02_insert_one_updates :
  ∀ (n : nat) (B : backend n) (HB : BackendOk B) (H : list bytes → arr n)
    (V : Type) (enc : V → res bytes) (dec : bytes → res V), 0 < n → codec_ok enc dec →
  ∀ st lg hs D r M k v e,
  hist B H enc dec st lg hs → no_collision H (lg ++ hlog B H (insert_one enc D (Some r) k v) st) →
  (r, M) ∈ hs → enc v = Ok e → 8 * n ≤ D →
  ∃ r', out B H (insert_one enc D (Some r) k v) st = ROk r' ∧
    holds B H dec (fin B H (insert_one enc D (Some r) k v) st) r' (<[k := v]> M).
Proof. intros n B HB H V enc dec Hn Hc. exact (insert_one_update Hn B H enc dec Hc). Qed.
Print Assumptions C02_insert_one_updates.
Example C02_case : ∃ r', out RB toy (insert_one idc 16 (Some (r2 RB)) K5 v1) (s3 RB) = ROk r' ∧ _ :=
  C02_insert_one_updates 2 RB _ toy _ idc idc ltac:(lia) idc_ok (s3 RB) (lg3 RB) (hs2 RB) 16 (r2 RB) (M2)
    K5 v1 v1 rocks_scenario ltac:(nc) ltac:(left) eq_refl ltac:(lia).

(** C03, for [mild] batches (Spec.v): those that are not hazardous or do not mislead, among them all batches of
    at most two keys.  The full statement, without [mild], is false: [C03_refuted] (PropsRefuted.v). *)
Theorem C03_batch_union_partial :
  ∀ (n : nat) (B : backend n) (HB : BackendOk B) (H : list bytes → arr n)
    (V : Type) (enc : V → res bytes) (dec : bytes → res V), 0 < n → codec_ok enc dec →
  ∀ st lg hs D r M ks vs,
  hist B H enc dec st lg hs → no_collision H (lg ++ hlog B H (insert enc D (Some r) ks vs) st) →
  (r, M) ∈ hs → mild M ks →
  length ks = length vs → ks ≠ [] → NoDup ks → (∀ v, v ∈ vs → ∃ e, enc v = Ok e) → 8 * n ≤ D →
  ∃ r', out B H (insert enc D (Some r) ks vs) st = ROk r' ∧
    holds B H dec (fin B H (insert enc D (Some r) ks vs) st) r' (list_to_map (zip ks vs) ∪ M).
Proof. intros n B HB H V enc dec Hn Hc. exact (insert_union Hn B H enc dec Hc). Qed.
Print Assumptions C03_batch_union_partial.
Example C03_case : ∃ r', out HB toy (insert idc 16 (Some (r2 HB)) [K4; K5] [v1; v2]) (s3 HB) = ROk r' ∧ _ :=
  C03_batch_union_partial 2 HB _ toy _ idc idc ltac:(lia) idc_ok (s3 HB) (lg3 HB) (hs2 HB) 16 (r2 HB) (M2)
    [K4; K5] [v1; v2] hash_scenario ltac:(nc) ltac:(left) ltac:(apply hazard_b_mild; vm_compute; reflexivity)
    eq_refl ltac:(done) ltac:(nd) ltac:(intros v _; by exists v) ltac:(lia).
(** A batch that is hazardous, and mild. *)
Example C03_mild_case : ∃ r', out HB toy (insert idc 16 (Some (r1 HB)) [K x00 x80; K x01 x00; K1] [v1; v2; v3]) (s3 HB) = ROk r' ∧ _ :=
  C03_batch_union_partial 2 HB _ toy _ idc idc ltac:(lia) idc_ok (s3 HB) (lg3 HB) (hs2 HB) 16 (r1 HB) (M1)
    [K x00 x80; K x01 x00; K1] [v1; v2; v3] hash_scenario ltac:(nc) ltac:(right; left) ltac:(apply misled_b_mild; vm_compute; reflexivity)
    eq_refl ltac:(done) ltac:(nd) ltac:(intros v _; by exists v) ltac:(lia).

(** C04 *)
Theorem C04_get_one_exact :
  ∀ (n : nat) (B : backend n) (HB : BackendOk B) (H : list bytes → arr n)
    (V : Type) (enc : V → res bytes) (dec : bytes → res V), 0 < n → codec_ok enc dec →
  ∀ st lg hs r M D k,
  hist B H enc dec st lg hs → no_collision H lg → (r, M) ∈ hs →
  (8 * n + 1 ≤ D → out B H (get_one dec D r k) st = ROk (M !! k)) ∧
  (out B H (get_one dec D r k) st = ROk (M !! k) ∨
   out B H (get_one dec D r k) st = RErr "Depth limit exceeded").
Proof. intros n B HB H V enc dec Hn Hc. exact (get_one_exact Hn B H enc dec Hc). Qed.
Print Assumptions C04_get_one_exact.
Example C04_case : out RB toy (get_one idc 17 (r2 RB) K3) (s3 RB) = ROk (Some v3) :=
  proj1 (C04_get_one_exact 2 RB _ toy _ idc idc ltac:(lia) idc_ok (s3 RB) (lg3 RB) (hs2 RB) (r2 RB) (M2) 17 K3
    rocks_scenario rocks_scenario_nc ltac:(left)) ltac:(lia).

(** C05, for [mild_get] requests (Spec.v), among them all requests for at most two keys.  The full statement is
    false: [C05_refuted]. *)
Theorem C05_get_exact_partial :
  ∀ (n : nat) (B : backend n) (HB : BackendOk B) (H : list bytes → arr n)
    (V : Type) (enc : V → res bytes) (dec : bytes → res V), 0 < n → codec_ok enc dec →
  ∀ st lg hs r M D ks,
  hist B H enc dec st lg hs → no_collision H lg → (r, M) ∈ hs → mild_get M ks → 8 * n ≤ D →
  ∃ lm, out B H (get dec D r ks) st = ROk lm ∧ (∀ k, k ∈ ks → lm !! k = Some (M !! k)) ∧
    (∀ k, k ∉ ks → lm !! k = None).
Proof. intros n B HB H V enc dec Hn Hc. exact (get_exact Hn B H enc dec Hc). Qed.
Print Assumptions C05_get_exact_partial.
Example C05_case : ∃ lm, out RB toy (get idc 16 (r2 RB) [K4; K1; K5; K3]) (s3 RB) = ROk lm ∧ _ :=
  C05_get_exact_partial 2 RB _ toy _ idc idc ltac:(lia) idc_ok (s3 RB) (lg3 RB) (hs2 RB) (r2 RB) (M2) 16
    [K4; K1; K5; K3] rocks_scenario rocks_scenario_nc ltac:(left)
    ltac:(apply hazard_b_mild_get; vm_compute; reflexivity) ltac:(lia).

(** C06: no condition on the request. *)
Theorem C06_get_never_wrong :
  ∀ (n : nat) (B : backend n) (HB : BackendOk B) (H : list bytes → arr n)
    (V : Type) (enc : V → res bytes) (dec : bytes → res V), 0 < n → codec_ok enc dec →
  ∀ st lg hs r M D ks lm,
  hist B H enc dec st lg hs → no_collision H lg → (r, M) ∈ hs → out B H (get dec D r ks) st = ROk lm →
  (∀ k, is_Some (lm !! k) ↔ k ∈ ks) ∧ (∀ k v, lm !! k = Some (Some v) → M !! k = Some v).
Proof. intros n B HB H V enc dec Hn Hc. exact (get_sound_all Hn B H enc dec Hc). Qed.
Print Assumptions C06_get_never_wrong.
Example C06_case : ∃ lm, out HB toy (get idc 4 (r2 HB) [K3; K5; K3]) (s3 HB) = ROk lm ∧
  (∀ k, is_Some (lm !! k) ↔ k ∈ [K3; K5; K3]) ∧ (∀ k v, lm !! k = Some (Some v) → M2 !! k = Some v).
Proof.
  destruct (is_ok_true (out HB toy (get idc 4 (r2 HB) [K3; K5; K3]) (s3 HB))) as [lm E].
  { vm_compute. reflexivity. }
  exists lm. split; [done|]. exact (C06_get_never_wrong 2 HB _ toy _ idc idc ltac:(lia) idc_ok _ _ _ _ M2 _ _ lm
    hash_scenario hash_scenario_nc ltac:(left) E).
Qed.

(** C07: in every reachable state every returned root still holds its map ([hist] adds calls
    of every kind and outcome after the insertion). *)
Theorem C07_roots_immutable :
  ∀ (n : nat) (B : backend n) (HB : BackendOk B) (H : list bytes → arr n)
    (V : Type) (enc : V → res bytes) (dec : bytes → res V), 0 < n → codec_ok enc dec →
  ∀ st lg hs r M,
  hist B H enc dec st lg hs → no_collision H lg → (r, M) ∈ hs → holds B H dec st r M.
Proof. intros n B HB H V enc dec Hn Hc. exact (hist_holds Hn B H enc dec Hc). Qed.
Print Assumptions C07_roots_immutable.
Example C07_case : holds RB toy idc (s3 RB) (r1 RB) M1 :=
  C07_roots_immutable 2 RB _ toy _ idc idc ltac:(lia) idc_ok _ _ _ _ _ rocks_scenario rocks_scenario_nc
    ltac:(right; left).

(** C07, all reads: at any stored root (even one returned for a hazardous batch), with any
    depth limit, every read gives the same outcome after any further calls. *)
Theorem C07_reads_stable :
  ∀ (n : nat) (B : backend n) (HB : BackendOk B) (H : list bytes → arr n)
    (V : Type) (enc : V → res bytes) (dec : bytes → res V), 0 < n → codec_ok enc dec →
  ∀ st lg hs cs r,
  hist B H enc dec st lg hs →
  no_collision H (lg ++ after_log B H enc dec st cs) → is_Some (b_vis B st !! r) →
  ∀ D, (∀ ks, out B H (get dec D r ks) (after B H enc dec st cs) = out B H (get dec D r ks) st) ∧
       (∀ k, out B H (get_one dec D r k) (after B H enc dec st cs) = out B H (get_one dec D r k) st) ∧
       (∀ k, out B H (generate_inclusion_proof D r k) (after B H enc dec st cs) =
             out B H (generate_inclusion_proof D r k) st).
Proof. intros n B HB H V enc dec Hn Hc. exact (reads_stable Hn B H enc dec Hc). Qed.
Print Assumptions C07_reads_stable.
Example C07_stable_case : ∀ D ks, out HB toy (get idc D (r1 HB) ks) (after HB toy idc idc (s3 HB)
    [CInsertOne 17 (Some (r1 HB)) K5 v1; CInsert 0 (Some (r2 HB)) [K1] [v4]]) =
    out HB toy (get idc D (r1 HB) ks) (s3 HB) :=
  λ D, proj1 (C07_reads_stable 2 HB _ toy _ idc idc ltac:(lia) idc_ok _ _ _ [CInsertOne 17 (Some (r1 HB)) K5 v1;
    CInsert 0 (Some (r2 HB)) [K1] [v4]] (r1 HB) hash_scenario ltac:(nc) ltac:(vm_compute; by eexists) D).

(** The root returned by any successful insertion is stored. *)
Theorem C07_returned_root_stored :
  ∀ (n : nat) (B : backend n) (HB : BackendOk B) (H : list bytes → arr n)
    (V : Type) (enc : V → res bytes) (dec : bytes → res V), 0 < n → codec_ok enc dec →
  ∀ st lg hs D prev ks vs r,
  hist B H enc dec st lg hs → no_collision H (lg ++ hlog B H (insert enc D prev ks vs) st) →
  out B H (insert enc D prev ks vs) st = ROk r →
  is_Some (b_vis B (fin B H (insert enc D prev ks vs) st) !! r).
Proof. intros n B HB H V enc dec Hn Hc. exact (returned_root_stored Hn B H enc dec Hc). Qed.
Print Assumptions C07_returned_root_stored.
Example C07_stored_case : is_Some (b_vis RB (s1 RB) !! r1 RB) :=
  C07_returned_root_stored 2 RB _ toy _ idc idc ltac:(lia) idc_ok _ _ _ 17 None [K2; K1] [v2; v1] (r1 RB)
    (hist_init RB toy idc idc) ltac:(nc) ltac:(vm_compute; reflexivity).

(** C08 *)
Theorem C08_failing_insert_harmless :
  ∀ (n : nat) (B : backend n) (HB : BackendOk B) (H : list bytes → arr n)
    (V : Type) (enc : V → res bytes) (dec : bytes → res V), 0 < n → codec_ok enc dec →
  ∀ st lg hs D prev ks vs er r M,
  hist B H enc dec st lg hs → no_collision H (lg ++ hlog B H (insert enc D prev ks vs) st) →
  out B H (insert enc D prev ks vs) st = RErr er → (r, M) ∈ hs →
  holds B H dec (fin B H (insert enc D prev ks vs) st) r M.
Proof. intros n B HB H V enc dec Hn Hc. exact (failing_insert Hn B H enc dec Hc). Qed.
Print Assumptions C08_failing_insert_harmless.
Example C08_case : ∃ er, out HB toy (insert idc 0 (Some (r2 HB)) [K1; K2] [v3; v3]) (s3 HB) = RErr er ∧
  holds HB toy idc (fin HB toy (insert idc 0 (Some (r2 HB)) [K1; K2] [v3; v3]) (s3 HB)) (r2 HB) M2.
Proof.
  eexists. split; [vm_compute; reflexivity|].
  eapply (C08_failing_insert_harmless 2 HB _ toy _ idc idc ltac:(lia) idc_ok);
    [exact hash_scenario|nc|vm_compute; reflexivity|left].
Qed.

Theorem C08_failing_insert_one_harmless :
  ∀ (n : nat) (B : backend n) (HB : BackendOk B) (H : list bytes → arr n)
    (V : Type) (enc : V → res bytes) (dec : bytes → res V), 0 < n → codec_ok enc dec →
  ∀ st lg hs D prev k v er r M,
  hist B H enc dec st lg hs → no_collision H (lg ++ hlog B H (insert_one enc D prev k v) st) →
  out B H (insert_one enc D prev k v) st = RErr er → (r, M) ∈ hs →
  holds B H dec (fin B H (insert_one enc D prev k v) st) r M.
Proof. intros n B HB H V enc dec Hn Hc. exact (λ st lg hs D prev k v, failing_insert Hn B H enc dec Hc st lg hs D prev [k] [v]). Qed.
Print Assumptions C08_failing_insert_one_harmless.
Example C08_one_case : ∃ er, out RB toy (insert_one idc 17 (Some K5) K1 v1) (s3 RB) = RErr er ∧
  holds RB toy idc (fin RB toy (insert_one idc 17 (Some K5) K1 v1) (s3 RB)) (r2 RB) M2.
Proof.
  eexists. split; [vm_compute; reflexivity|].
  eapply (C08_failing_insert_one_harmless 2 RB _ toy _ idc idc ltac:(lia) idc_ok);
    [exact rocks_scenario|nc|vm_compute; reflexivity|left].
Qed.

(** C09: two histories, possibly on different backends. *)
Theorem C09_root_depends_on_contents :
  ∀ (n : nat) (B1 B2 : backend n) (HB1 : BackendOk B1) (HB2 : BackendOk B2)
    (H : list bytes → arr n) (V : Type) (enc : V → res bytes) (dec : bytes → res V),
  0 < n → codec_ok enc dec → ∀ st1 lg1 hs1 st2 lg2 hs2 r1 r2 M,
  hist B1 H enc dec st1 lg1 hs1 → hist B2 H enc dec st2 lg2 hs2 →
  no_collision H lg1 → no_collision H lg2 → (r1, M) ∈ hs1 → (r2, M) ∈ hs2 → r1 = r2.
Proof. intros n B1 B2 HB1 HB2 H V enc dec Hn Hc. exact (root_determined Hn B1 B2 H enc dec Hc). Qed.
Print Assumptions C09_root_depends_on_contents.
Example C09_case : r2 HB = r2 RB :=
  C09_root_depends_on_contents 2 HB RB _ _ toy _ idc idc ltac:(lia) idc_ok _ _ _ _ _ _ (r2 HB) (r2 RB) M2
    hash_scenario rocks_scenario hash_scenario_nc rocks_scenario_nc ltac:(left) ltac:(left).

(** C10 *)
Theorem C10_root_commits :
  ∀ (n : nat) (B1 B2 : backend n) (HB1 : BackendOk B1) (HB2 : BackendOk B2)
    (H : list bytes → arr n) (V : Type) (enc : V → res bytes) (dec : bytes → res V),
  0 < n → codec_ok enc dec → ∀ st1 lg1 hs1 st2 lg2 hs2 r M1 M2,
  hist B1 H enc dec st1 lg1 hs1 → hist B2 H enc dec st2 lg2 hs2 →
  no_collision H (lg1 ++ lg2) → (r, M1) ∈ hs1 → (r, M2) ∈ hs2 → M1 = M2.
Proof. intros n B1 B2 HB1 HB2 H V enc dec Hn Hc. exact (root_commits2 Hn B1 B2 H enc dec Hc). Qed.
Print Assumptions C10_root_commits.
Example C10_case : no_collision toy (lg3 HB ++ lg3 RB) ∧ (r2 HB, M2) ∈ hs2 HB ∧ (r2 HB, M2) ∈ hs2 RB.
Proof. split_and!; [nc|left|]. rewrite C09_case. left. Qed.

(** C11 *)
Theorem C11_proofs_verify :
  ∀ (n : nat) (B : backend n) (HB : BackendOk B) (H : list bytes → arr n)
    (V : Type) (enc : V → res bytes) (dec : bytes → res V), 0 < n → codec_ok enc dec →
  ∀ st lg hs r M D k v,
  hist B H enc dec st lg hs → no_collision H lg → (r, M) ∈ hs → M !! k = Some v → 8 * n + 1 ≤ D →
  ∃ proof, out B H (generate_inclusion_proof D r k) st = ROk proof ∧
    ∀ (B' : backend n) (st' : b_st B'), out B' H (verify_inclusion_proof enc r k v proof) st' = ROk tt.
Proof. intros n B HB H V enc dec Hn Hc. exact (proofs_verify Hn B H enc dec Hc). Qed.
Print Assumptions C11_proofs_verify.
Example C11_case : ∃ proof, out RB toy (generate_inclusion_proof 17 (r2 RB) K3) (s3 RB) = ROk proof ∧
    ∀ (B' : backend 2) (st' : b_st B'), out B' toy (verify_inclusion_proof idc (r2 RB) K3 v3 proof) st' = ROk tt :=
  C11_proofs_verify 2 RB _ toy _ idc idc ltac:(lia) idc_ok _ _ _ _ M2 17 K3 v3 rocks_scenario rocks_scenario_nc
    ltac:(left) eq_refl ltac:(lia).

(** C12: [proof] is arbitrary. *)
Theorem C12_proofs_sound :
  ∀ (n : nat) (B : backend n) (HB : BackendOk B) (H : list bytes → arr n)
    (V : Type) (enc : V → res bytes) (dec : bytes → res V), 0 < n → codec_ok enc dec →
  ∀ st lg hs r M k v proof (B' : backend n) (st' : b_st B'),
  hist B H enc dec st lg hs → (r, M) ∈ hs →
  no_collision H (lg ++ hlog B' H (verify_inclusion_proof enc r k v proof) st') →
  out B' H (verify_inclusion_proof enc r k v proof) st' = ROk tt → M !! k = Some v.
Proof. intros n B HB H V enc dec Hn Hc. exact (proofs_sound Hn B H enc dec Hc). Qed.
Print Assumptions C12_proofs_sound.
Example C12_case : ∃ proof, out RB toy (verify_inclusion_proof idc (r2 RB) K3 v3 proof) (b_init RB) = ROk tt ∧
  no_collision toy (lg3 RB ++ hlog RB toy (verify_inclusion_proof idc (r2 RB) K3 v3 proof) (b_init RB)).
Proof.
  exists (the_root (out RB toy (generate_inclusion_proof 17 (r2 RB) K3) (s3 RB)) []).
  split; [vm_compute; reflexivity|nc].
Qed.

(** C13: any depth limit. *)
Theorem C13_no_proof_for_absent :
  ∀ (n : nat) (B : backend n) (HB : BackendOk B) (H : list bytes → arr n)
    (V : Type) (enc : V → res bytes) (dec : bytes → res V), 0 < n → codec_ok enc dec →
  ∀ st lg hs r M D k,
  hist B H enc dec st lg hs → no_collision H lg → (r, M) ∈ hs → M !! k = None →
  ∃ er, out B H (generate_inclusion_proof D r k) st = RErr er.
Proof. intros n B HB H V enc dec Hn Hc. exact (no_proof_absent Hn B H enc dec Hc). Qed.
Print Assumptions C13_no_proof_for_absent.
Example C13_case : ∃ er, out RB toy (generate_inclusion_proof 30 (r2 RB) K5) (s3 RB) = RErr er :=
  C13_no_proof_for_absent 2 RB _ toy _ idc idc ltac:(lia) idc_ok _ _ _ _ M2 30 K5 rocks_scenario rocks_scenario_nc
    ltac:(left) eq_refl.

(** C14: the hypotheses are met as in [C12_case]; the two proofs are arbitrary. *)
Theorem C14_one_value_per_key :
  ∀ (n : nat) (B : backend n) (HB : BackendOk B) (H : list bytes → arr n)
    (V : Type) (enc : V → res bytes) (dec : bytes → res V), 0 < n → codec_ok enc dec →
  ∀ st lg hs r M k v1 v2 p1 p2 (B1 B2 : backend n) (st1 : b_st B1) (st2 : b_st B2),
  hist B H enc dec st lg hs → (r, M) ∈ hs →
  no_collision H (lg ++ hlog B1 H (verify_inclusion_proof enc r k v1 p1) st1
                     ++ hlog B2 H (verify_inclusion_proof enc r k v2 p2) st2) →
  out B1 H (verify_inclusion_proof enc r k v1 p1) st1 = ROk tt →
  out B2 H (verify_inclusion_proof enc r k v2 p2) st2 = ROk tt → v1 = v2.
Proof. intros n B HB H V enc dec Hn Hc. exact (one_value_per_key Hn B H enc dec Hc). Qed.
Print Assumptions C14_one_value_per_key.

(** C16: any backend, any state. *)
Theorem C16_malformed_rejected :
  ∀ (n : nat) (B : backend n) (H : list bytes → arr n) (V : Type) (enc : V → res bytes) D prev ks vs st,
  length ks ≠ length vs ∨ ks = [] →
  ∃ er, out B H (insert enc D prev ks vs) st = RErr er ∧
        fin B H (insert enc D prev ks vs) st = st ∧ hlog B H (insert enc D prev ks vs) st = [].
Proof. intros n B H V enc. exact (malformed_rejected B H enc). Qed.
Print Assumptions C16_malformed_rejected.
Example C16_case : ∃ er, out RB toy (insert idc 17 (Some (r2 RB)) [K1; K2] [v1]) (s3 RB) = RErr er ∧ _ :=
  C16_malformed_rejected 2 RB toy _ idc 17 (Some (r2 RB)) [K1; K2] [v1] (s3 RB) ltac:(left; discriminate).

(** C17: any previous root, stored or not. *)
Theorem C17_duplicates_rejected :
  ∀ (n : nat) (B : backend n) (HB : BackendOk B) (H : list bytes → arr n)
    (V : Type) (enc : V → res bytes) (dec : bytes → res V), 0 < n → codec_ok enc dec →
  ∀ st lg hs D prev ks vs,
  hist B H enc dec st lg hs → no_collision H (lg ++ hlog B H (insert enc D prev ks vs) st) → ¬ NoDup ks →
  ∃ er, out B H (insert enc D prev ks vs) st = RErr er.
Proof. intros n B HB H V enc dec Hn Hc. exact (duplicates_rejected Hn B H enc dec Hc). Qed.
Print Assumptions C17_duplicates_rejected.
Example C17_case : ∃ er, out RB toy (insert idc 17 (Some (r2 RB)) [K5; K1; K5] [v1; v2; v3]) (s3 RB) = RErr er :=
  C17_duplicates_rejected 2 RB _ toy _ idc idc ltac:(lia) idc_ok (s3 RB) (lg3 RB) (hs2 RB) 17
    (Some (r2 RB)) [K5; K1; K5] [v1; v2; v3] rocks_scenario ltac:(nc)
    ltac:(intros Hnd; apply NoDup_cons in Hnd as [Hnd _]; apply Hnd; right; left).

(** C18: same outcome, same final state, same strings hashed in the same order. *)
Theorem C18_batch_order :
  ∀ (n : nat) (B : backend n) (H : list bytes → arr n) (V : Type) (enc : V → res bytes), 0 < n →
  ∀ D prev ks vs ks' vs',
  length ks = length vs → length ks' = length vs' → NoDup ks → zip ks vs ≡ₚ zip ks' vs' →
  ∀ st, run B H (insert enc D prev ks vs) st = run B H (insert enc D prev ks' vs') st.
Proof. intros n B H V enc Hn. exact (batch_order Hn B H enc). Qed.
Print Assumptions C18_batch_order.
Example C18_case : run RB toy (insert idc 17 None [K5; K1] [v1; v2]) (s3 RB) =
                   run RB toy (insert idc 17 None [K1; K5] [v2; v1]) (s3 RB) :=
  C18_batch_order 2 RB toy _ idc ltac:(lia) 17 None [K5; K1] [v1; v2] [K1; K5] [v2; v1] eq_refl eq_refl ltac:(nd)
    ltac:(constructor) (s3 RB).

(** C22: [st] is arbitrary (no history), so the database may contain anything.  The third
    clause says that the loop bound of the model is immaterial. *)
Theorem C22_remove_total :
  ∀ (n : nat) (B : backend n) (HB : BackendOk B) (H : list bytes → arr n) st root,
  out B H (remove_prog B st root) st = ROk tt ∧
  fetches B H (remove_prog B st root) st ≤ 1 + 3 * size (b_vis B st) ∧
  (∀ fuel, 1 + 3 * size (b_vis B st) ≤ fuel →
     run B H (remove fuel root) st = run B H (remove_prog B st root) st) ∧
  (b_vis B st !! root = None → fin B H (remove_prog B st root) st = b_flush B st).
Proof. intros n B HB H. exact (remove_total B H). Qed.
Print Assumptions C22_remove_total.
Example C22_case : (* a branch that is its own child, with reference count 7 *)
  let nd := Node 7 (VBranch 1 K1 K1 0 K1) in
  out HB toy (remove_prog HB {[ K1 := nd ]} K1) {[ K1 := nd ]} = ROk tt :=
  proj1 (C22_remove_total 2 HB _ toy _ K1).

(** C24 (the last hypothesis only excludes a value encoder that itself reports that very message) *)
Theorem C24_depth_enough :
  ∀ (n : nat) (B : backend n) (HB : BackendOk B) (H : list bytes → arr n)
    (V : Type) (enc : V → res bytes) (dec : bytes → res V), 0 < n → codec_ok enc dec →
  ∀ st lg hs r M,
  hist B H enc dec st lg hs → (r, M) ∈ hs →
  (∀ D ks, no_collision H lg → 8 * n ≤ D → ∃ lm, out B H (get dec D r ks) st = ROk lm) ∧
  (∀ D k, no_collision H lg → 8 * n + 1 ≤ D → ∃ o, out B H (get_one dec D r k) st = ROk o) ∧
  (∀ D k, no_collision H lg → 8 * n + 1 ≤ D →
     out B H (generate_inclusion_proof D r k) st ≠ RErr "Depth limit exceeded") ∧
  (∀ D ks vs, no_collision H (lg ++ hlog B H (insert enc D (Some r) ks vs) st) → 8 * n ≤ D →
     (∀ v, v ∈ vs → enc v ≠ Err "Depth of merkle tree exceeded") →
     out B H (insert enc D (Some r) ks vs) st ≠ RErr "Depth of merkle tree exceeded").
Proof. intros n B HB H V enc dec Hn Hc. exact (depth_enough Hn B H enc dec Hc). Qed.
Print Assumptions C24_depth_enough.
Example C24_case : ∀ ks, ∃ lm, out RB toy (get idc 16 (r2 RB) ks) (s3 RB) = ROk lm :=
  λ ks, proj1 (C24_depth_enough 2 RB _ toy _ idc idc ltac:(lia) idc_ok _ _ _ _ M2 rocks_scenario ltac:(left)) 16 ks
    rocks_scenario_nc ltac:(lia).

(** C26: [B] and [st] are arbitrary. *)
Theorem C26_calls_terminate :
  ∀ (n : nat) (B : backend n) (H : list bytes → arr n)
    (V : Type) (enc : V → res bytes) (dec : bytes → res V), ∀ st,
  (∀ D r ks, out B H (get dec D r ks) st ≠ RFuel ∧
     fetches B H (get dec D r ks) st ≤ 1 + 2 * length ks * (D + 2)) ∧
  (∀ D r k, out B H (get_one dec D r k) st ≠ RFuel ∧ fetches B H (get_one dec D r k) st ≤ D + 1) ∧
  (∀ D r k, out B H (generate_inclusion_proof D r k) st ≠ RFuel ∧
     fetches B H (generate_inclusion_proof D r k) st ≤ D + 1) ∧
  (∀ D prev ks vs, out B H (insert enc D prev ks vs) st ≠ RFuel ∧
     fetches B H (insert enc D prev ks vs) st ≤ 1 + 2 * length ks * (D + 3)).
Proof. intros n B H V enc dec. exact (calls_terminate B H enc dec). Qed.
Print Assumptions C26_calls_terminate.
Example C26_case : (* a branch that is its own child *)
  let st : b_st HB := {[ K1 := Node 7 (VBranch 1 K1 K1 15 K1) ]} in
  fetches HB toy (get_one idc 40 K1 K1) st = 41 ∧
  out HB toy (get_one idc 40 K1 K1) st = RErr "Depth limit exceeded".
Proof. split; vm_compute; reflexivity. Qed.

(** C29: [states] lists the states before and after each database operation; [b_drop] loses
    the queued writes.  [insert_one] is [insert] of one pair ([C43_insert_one]). *)
Theorem C29_crash_during_insert :
  ∀ (n : nat) (B : backend n) (HB : BackendOk B) (H : list bytes → arr n)
    (V : Type) (enc : V → res bytes) (dec : bytes → res V), 0 < n → codec_ok enc dec →
  ∀ st lg hs D prev ks vs st' r M,
  hist B H enc dec st lg hs → no_collision H (lg ++ hlog B H (insert enc D prev ks vs) st) →
  st' ∈ states B H (insert enc D prev ks vs) st → (r, M) ∈ hs → holds B H dec (b_drop B st') r M.
Proof. intros n B HB H V enc dec Hn Hc. exact (crash_safe Hn B H enc dec Hc). Qed.
Print Assumptions C29_crash_during_insert.
Example C29_case : length (states RB toy (insert idc 17 (Some (r2 RB)) [K5; K4] [v1; v1]) (s3 RB)) = 29 ∧
  ∀ st', st' ∈ states RB toy (insert idc 17 (Some (r2 RB)) [K5; K4] [v1; v1]) (s3 RB) →
    holds RB toy idc (b_drop RB st') (r2 RB) M2.
Proof.
  split; [vm_compute; reflexivity|]. intros st' Hst'.
  eapply (C29_crash_during_insert 2 RB _ toy _ idc idc ltac:(lia) idc_ok _ (lg3 RB) (hs2 RB) 17 (Some (r2 RB))
    [K5; K4] [v1; v1]); [exact rocks_scenario|nc|exact Hst'|left].
Qed.

(** C31: the same calls made on two backends ([both], Spec.v). *)
Theorem C31_backends_agree :
  ∀ (n : nat) (B1 B2 : backend n) (HB1 : BackendOk B1) (HB2 : BackendOk B2)
    (H : list bytes → arr n) (V : Type) (enc : V → res bytes) (dec : bytes → res V),
  0 < n → codec_ok enc dec → ∀ st1 st2 lg1 lg2 hs,
  both B1 B2 H enc dec st1 st2 lg1 lg2 hs → no_collision H lg1 → no_collision H lg2 →
  (∀ D prev M ks vs r, prev_holds hs prev M → mild M ks →
     no_collision H (lg1 ++ hlog B1 H (insert enc D prev ks vs) st1) →
     no_collision H (lg2 ++ hlog B2 H (insert enc D prev ks vs) st2) →
     out B1 H (insert enc D prev ks vs) st1 = ROk r ↔ out B2 H (insert enc D prev ks vs) st2 = ROk r) ∧
  (∀ r M D, (r, M) ∈ hs →
     (∀ ks, out B1 H (get dec D r ks) st1 = out B2 H (get dec D r ks) st2) ∧
     (∀ k, out B1 H (get_one dec D r k) st1 = out B2 H (get_one dec D r k) st2) ∧
     (∀ k, out B1 H (generate_inclusion_proof D r k) st1 = out B2 H (generate_inclusion_proof D r k) st2)).
Proof. intros n B1 B2 HB1 HB2 H V enc dec Hn Hc. exact (backends_agree Hn B1 B2 H enc dec Hc). Qed.
Print Assumptions C31_backends_agree.
Example C31_case : both HB RB toy idc idc (s1 HB) (s1 RB) (lg1 HB) (lg1 RB) [(r1 HB, M1)].
Proof.
  unfold s1, lg1, M1. eapply both_insert with (prev := None);
    [apply both_init|done|left; apply benign_empty|vm_compute; reflexivity].
Qed.

(** C32: the [i]-th database operation fails (or the call makes fewer than [i] of them). *)
Theorem C32_fault_during_insert :
  ∀ (n : nat) (B : backend n) (HB : BackendOk B) (H : list bytes → arr n)
    (V : Type) (enc : V → res bytes) (dec : bytes → res V), 0 < n → codec_ok enc dec →
  ∀ st lg hs D prev ks vs i r M,
  hist B H enc dec st lg hs → no_collision H (lg ++ hlog B H (insert enc D prev ks vs) st) → (r, M) ∈ hs →
  holds B H dec (run_fault B H i (insert enc D prev ks vs) st).2 r M ∧
  ((run_fault B H i (insert enc D prev ks vs) st).1 = RErr "database failure" ∨
   run_fault B H i (insert enc D prev ks vs) st =
     (out B H (insert enc D prev ks vs) st, fin B H (insert enc D prev ks vs) st)).
Proof. intros n B HB H V enc dec Hn Hc. exact (fault_safe Hn B H enc dec Hc). Qed.
Print Assumptions C32_fault_during_insert.
Example C32_case : (run_fault RB toy 6 (insert idc 17 (Some (r2 RB)) [K5; K4] [v1; v1]) (s3 RB)).1 =
    RErr "database failure" ∧
  holds RB toy idc (run_fault RB toy 6 (insert idc 17 (Some (r2 RB)) [K5; K4] [v1; v1]) (s3 RB)).2 (r2 RB) M2.
Proof.
  split; [vm_compute; reflexivity|].
  eapply (C32_fault_during_insert 2 RB _ toy _ idc idc ltac:(lia) idc_ok); [exact rocks_scenario|nc|left].
Qed.

(** C40: any state.  The condition of the last clause excludes that [root] is the location of
    a node the insertion itself writes before it looks for the root. *)
Theorem C40_missing_root :
  ∀ (n : nat) (B : backend n) (HB : BackendOk B) (H : list bytes → arr n)
    (V : Type) (enc : V → res bytes) (dec : bytes → res V), 0 < n → codec_ok enc dec →
  ∀ st root,
  b_vis B st !! root = None →
  (∀ D ks, ∃ lm, out B H (get dec D root ks) st = ROk lm ∧
     ∀ k, lm !! k = if decide (k ∈ ks) then Some None else None) ∧
  (∀ D k, out B H (get_one dec D root k) st = ROk None) ∧
  (∀ D k, ∃ er, out B H (generate_inclusion_proof D root k) st = RErr er) ∧
  (out B H (remove_prog B st root) st = ROk tt ∧ fin B H (remove_prog B st root) st = b_flush B st) ∧
  (∀ D ks vs, (∀ x, x ∈ hlog B H (insert enc D (Some root) ks vs) st → H x ≠ root) →
     ∃ er, out B H (insert enc D (Some root) ks vs) st = RErr er).
Proof. intros n B HB H V enc dec Hn Hc. exact (missing_root Hn B H enc dec Hc). Qed.
Print Assumptions C40_missing_root.
Example C40_case : b_vis RB (s3 RB) !! K5 = None ∧
  ∀ x, x ∈ hlog RB toy (insert idc 17 (Some K5) [K1; K2] [v1; v2]) (s3 RB) → toy x ≠ K5.
Proof.
  split; [vm_compute; reflexivity|]. intros x Hx He.
  assert (forallb (λ x, negb (bool_decide (toy x = K5)))
    (hlog RB toy (insert idc 17 (Some K5) [K1; K2] [v1; v2]) (s3 RB)) = true) as Hf by (vm_compute; reflexivity).
  rewrite forallb_forall in Hf. apply elem_of_list_In, Hf in Hx. by rewrite bool_decide_eq_true_2 in Hx.
Qed.

(** C43, reads *)
Theorem C43_single_get :
  ∀ (n : nat) (B : backend n) (HB : BackendOk B) (H : list bytes → arr n)
    (V : Type) (enc : V → res bytes) (dec : bytes → res V), 0 < n → codec_ok enc dec →
  ∀ st lg hs r M D k,
  hist B H enc dec st lg hs → no_collision H lg → (r, M) ∈ hs → 8 * n + 1 ≤ D →
  ∃ o, out B H (get_one dec D r k) st = ROk o ∧
       ∃ lm, out B H (get dec D r [k]) st = ROk lm ∧ lm !! k = Some o.
Proof. intros n B HB H V enc dec Hn Hc. exact (single_key_agrees Hn B H enc dec Hc). Qed.
Print Assumptions C43_single_get.
Example C43_case : ∃ o, out RB toy (get_one idc 17 (r2 RB) K3) (s3 RB) = ROk o ∧
       ∃ lm, out RB toy (get idc 17 (r2 RB) [K3]) (s3 RB) = ROk lm ∧ lm !! K3 = Some o :=
  C43_single_get 2 RB _ toy _ idc idc ltac:(lia) idc_ok _ _ _ _ M2 17 K3 rocks_scenario rocks_scenario_nc ltac:(left)
    ltac:(lia).

(** C43, insertions: any backend, any state. *)
Theorem C43_insert_one :
  ∀ (n : nat) (B : backend n) (H : list bytes → arr n) (V : Type) (enc : V → res bytes) D prev k v st,
  run B H (insert_one enc D prev k v) st = run B H (insert enc D prev [k] [v]) st.
Proof. intros n B H V enc. exact (λ D prev k v st, f_equal (λ p, run B H p st) (insert_one_insert enc D prev k v)). Qed.
Print Assumptions C43_insert_one.

(** C44: any backend, any state, any outcome. *)
Theorem C44_reads_do_not_write :
  ∀ (n : nat) (B : backend n) (H : list bytes → arr n)
    (V : Type) (enc : V → res bytes) (dec : bytes → res V), ∀ st,
  (∀ D r ks, fin B H (get dec D r ks) st = st) ∧
  (∀ D r k, fin B H (get_one dec D r k) st = st) ∧
  (∀ D r k, fin B H (generate_inclusion_proof D r k) st = st) ∧
  (∀ r k v p, fin B H (verify_inclusion_proof enc r k v p) st = st).
Proof. intros n B H V enc dec. exact (reads_do_not_write B H enc dec). Qed.
Print Assumptions C44_reads_do_not_write.

(** C46, insertions: any arguments. *)
Theorem C46_insert_no_panic :
  ∀ (n : nat) (B : backend n) (HB : BackendOk B) (H : list bytes → arr n)
    (V : Type) (enc : V → res bytes) (dec : bytes → res V), 0 < n → codec_ok enc dec →
  ∀ st lg hs D prev ks vs,
  hist B H enc dec st lg hs → no_collision H (lg ++ hlog B H (insert enc D prev ks vs) st) →
  (∃ r, out B H (insert enc D prev ks vs) st = ROk r) ∨ (∃ er, out B H (insert enc D prev ks vs) st = RErr er).
Proof. intros n B HB H V enc dec Hn Hc. exact (insert_no_panic Hn B H enc dec Hc). Qed.
Print Assumptions C46_insert_no_panic.
Example C46_case : ∃ er, out RB toy (insert idc 1 (Some (r2 RB)) [K2; K5] [v1; v2]) (s3 RB) = RErr er.
Proof.
  destruct (C46_insert_no_panic 2 RB _ toy _ idc idc ltac:(lia) idc_ok _ _ _ 1 (Some (r2 RB)) [K2; K5] [v1; v2]
    rocks_scenario ltac:(nc)) as [[r Hr]|He]; [|exact He]. vm_compute in Hr. discriminate Hr.
Qed.

(** C46, reads: any root, even the location of a data node. *)
Theorem C46_reads_no_panic :
  ∀ (n : nat) (B : backend n) (HB : BackendOk B) (H : list bytes → arr n)
    (V : Type) (enc : V → res bytes) (dec : bytes → res V), 0 < n → codec_ok enc dec →
  ∀ st lg hs D r,
  hist B H enc dec st lg hs → no_collision H lg →
  (∀ ks, (∃ lm, out B H (get dec D r ks) st = ROk lm) ∨ (∃ er, out B H (get dec D r ks) st = RErr er)) ∧
  (∀ k, (∃ o, out B H (get_one dec D r k) st = ROk o) ∨ (∃ er, out B H (get_one dec D r k) st = RErr er)) ∧
  (∀ k, (∃ p, out B H (generate_inclusion_proof D r k) st = ROk p) ∨
        (∃ er, out B H (generate_inclusion_proof D r k) st = RErr er)).
Proof. intros n B HB H V enc dec Hn Hc. exact (reads_no_panic Hn B H enc dec Hc). Qed.
Print Assumptions C46_reads_no_panic.
