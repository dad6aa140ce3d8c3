(** * Where the values come from, whatever happened to the database
    Statements only; see PropsHist.v for the conventions.  [wrote] and [gives] are defined in
    Written.v, [pair_below] in Spec.v. *)
From Coq Require Import Strings.Byte NArith.
From stdpp Require Import prelude countable gmap sorting strings.
From Verif Require Import Model Bits Spec Logic Safe Claims Live Wild Written Scenario Scenario10 Refuted.

Local Open Scope nat_scope.

Notation HB := (hash_db 2). Notation RB := (rocks_db 2).
Ltac nc := apply no_collision_b_sound; vm_compute; reflexivity.

(** C85, single-key reads at any location. *)
Theorem C85_get_one :
  ∀ (n : nat) (B : backend n) (HB : BackendOk B) (H : list bytes → arr n)
    (V : Type) (enc : V → res bytes) (dec : bytes → res V), 0 < n → codec_ok enc dec →
  ∀ st lg ws D r k v, wrote B H enc dec st lg ws → no_collision H lg →
  out B H (get_one dec D r k) st = ROk (Some v) → (k, v) ∈ ws.
Proof. intros n B HB H V enc dec Hn Hc. exact (wrote_get_one Hn B H enc dec Hc). Qed.
Print Assumptions C85_get_one.
(** [K1] is still read below [r1]; [K1] with [v2] is read nowhere. *)
Example C85_get_one_case : (K1, v1) ∈ xws RB ∧ ∀ D r, out HB toy (get_one idc D r K1) (x4 HB) ≠ ROk (Some v2).
Proof.
  split.
  - apply (C85_get_one 2 RB _ toy _ idc idc (Nat.lt_0_succ 1) idc_ok _ _ _ 17 (r1 RB) K1 v1 (mixed_wrote RB) mixed_nc_rocks).
    vm_compute. reflexivity.
  - intros D r Hr. apply not_given.
    exact (C85_get_one 2 HB _ toy _ idc idc (Nat.lt_0_succ 1) idc_ok _ _ _ D r K1 v2 (mixed_wrote HB) mixed_nc_hash Hr).
Qed.

(** C85, multi-key reads at any location. *)
Theorem C85_get :
  ∀ (n : nat) (B : backend n) (HB : BackendOk B) (H : list bytes → arr n)
    (V : Type) (enc : V → res bytes) (dec : bytes → res V), 0 < n → codec_ok enc dec →
  ∀ st lg ws D r ks lm k v, wrote B H enc dec st lg ws → no_collision H lg →
  out B H (get dec D r ks) st = ROk lm → lm !! k = Some (Some v) → k ∈ ks ∧ (k, v) ∈ ws.
Proof. intros n B HB H V enc dec Hn Hc. exact (wrote_get Hn B H enc dec Hc). Qed.
Print Assumptions C85_get.
Example C85_get_case : ∃ lm, out RB toy (get idc 17 (r1 RB) [KX; K1]) (x4 RB) = ROk lm ∧ lm !! K1 = Some (Some v1) ∧
  ∀ k v, lm !! k = Some (Some v) → k ∈ [KX; K1] ∧ (k, v) ∈ xws RB.
Proof.
  assert (match out RB toy (get idc 17 (r1 RB) [KX; K1]) (x4 RB) with ROk lm => lm !! K1 | _ => None end = Some (Some v1)) as Ht
    by (vm_compute; reflexivity).
  destruct (out RB toy (get idc 17 (r1 RB) [KX; K1]) (x4 RB)) as [lm| | |] eqn:Ho; try discriminate Ht.
  exists lm. split; [done|]. split; [exact Ht|]. intros k v.
  exact (C85_get 2 RB _ toy _ idc idc (Nat.lt_0_succ 1) idc_ok _ _ _ 17 (r1 RB) [KX; K1] lm k v (mixed_wrote RB) mixed_nc_rocks Ho).
Qed.

(** C85, proofs that verify against a location of the database. *)
Theorem C85_proof :
  ∀ (n : nat) (B : backend n) (HB : BackendOk B) (H : list bytes → arr n)
    (V : Type) (enc : V → res bytes) (dec : bytes → res V), 0 < n → codec_ok enc dec →
  ∀ st lg ws r nd k v proof (B' : backend n) (st' : b_st B'), wrote B H enc dec st lg ws → b_vis B st !! r = Some nd →
  no_collision H (lg ++ hlog B' H (verify_inclusion_proof enc r k v proof) st') →
  out B' H (verify_inclusion_proof enc r k v proof) st' = ROk tt → (k, v) ∈ ws.
Proof. intros n B HB H V enc dec Hn Hc. exact (wrote_proof Hn B H enc dec Hc). Qed.
Print Assumptions C85_proof.
Example C85_proof_case : (K1, v1) ∈ xws RB.
Proof.
  set (p := the_root (out RB toy (generate_inclusion_proof 17 (r1 RB) K1) (x4 RB)) []).
  assert (is_Some (b_vis RB (x4 RB) !! r1 RB)) as [nd Hnd] by (vm_compute; by eexists).
  apply (C85_proof 2 RB _ toy _ idc idc (Nat.lt_0_succ 1) idc_ok _ _ _ (r1 RB) nd K1 v1 p HB (x4 HB) (mixed_wrote RB) Hnd).
  - nc.
  - vm_compute. reflexivity.
Qed.

(** C85, everything below any location. *)
Theorem C85_below :
  ∀ (n : nat) (B : backend n) (HB : BackendOk B) (H : list bytes → arr n)
    (V : Type) (enc : V → res bytes) (dec : bytes → res V), 0 < n →
  ∀ st lg ws r k e, wrote B H enc dec st lg ws → no_collision H lg →
  pair_below (b_vis B st) r k e → ∃ v, (k, v) ∈ ws ∧ enc v = Ok e.
Proof. intros n B HB H V enc dec Hn. exact (wrote_below Hn B H enc dec). Qed.
Print Assumptions C85_below.
Example C85_below_case : ∃ v, (K1, v) ∈ xws HB ∧ idc v = Ok v1.
Proof.
  apply (C85_below 2 HB _ toy _ idc idc (Nat.lt_0_succ 1) _ _ _ (r1 HB) K1 v1 (mixed_wrote HB) mixed_nc_hash).
  exists (toy (leaf_in K1 (toy (data_in K1 v1)))), (toy (data_in K1 v1)).
  assert (∃ rf, b_vis HB (x4 HB) !! toy (leaf_in K1 (toy (data_in K1 v1))) = Some (Node rf (VLeaf K1 (toy (data_in K1 v1))))) as [rf Hl]
    by (eexists; vm_compute; reflexivity).
  assert (∃ rf, b_vis HB (x4 HB) !! toy (data_in K1 v1) = Some (Node rf (VData v1))) as [rf' Hd]
    by (eexists; vm_compute; reflexivity).
  exists rf, rf'. split; [|done]. eapply rtc_once. eexists. split; [vm_compute; reflexivity|]. left.
Qed.

(** Every history of [wild] is such a history. *)
Theorem C85_wild :
  ∀ (n : nat) (B : backend n) (H : list bytes → arr n) (V : Type) (enc : V → res bytes) (dec : bytes → res V) st lg,
  wild B H enc dec st lg → ∃ ws, wrote B H enc dec st lg ws.
Proof. exact (@wild_wrote). Qed.
Print Assumptions C85_wild.
Example C85_wild_case : ∃ ws, wrote HB toy idc idc (x4 HB) (xlg HB) ws.
Proof. apply (C85_wild 2 HB toy _ idc idc). exact (wrote_wild HB toy idc idc _ _ _ (mixed_wrote HB)). Qed.
