(** * Builds, sessions and depth limits used in the examples of PropsMachine.v and
    PropsDeploy.v *)
From Coq Require Import Strings.Byte NArith.
From stdpp Require Import prelude countable gmap sorting strings.
From Verif Require Import Model Bits Spec Logic Claims Live Struct Scenario Codec Machine Counts MachineProofs Deploy.

Local Open Scope nat_scope.

(** A 64-bit release or debug build. *)
Definition usual (w : bool) : build := Bld 64 32 64 w (λ d, d).
Lemma fitsb_sound w a : fitsb w a = true → fits w a.
Proof. apply N.ltb_lt. Qed.

(** An insertion, one that fails half way, a re-insertion, a restart, a removal
    and reads. *)
Definition day (r : arr 2) : list (op 2 bytes) :=
  [OpCall (CInsert 17 None [K1; K2; K3] [v1; v2; v3]); OpFault (CInsert 17 (Some r) [K4; K2] [v1; v4]) 7;
   OpCall (CInsertOne 17 (Some r) K1 v4); OpRestart; OpCall (CProve 17 r K2); OpRemove r; OpCall (CGet 17 r [K1; K4])].
Definition day_root : arr 2 := the_root (out (rocks_db 2) toy (insert idc 17 None [K1; K2; K3] [v1; v2; v3]) (b_init _)) K1.
Lemma day_nc : no_collision toy (session_log (rocks_db 2) toy idc idc (b_init _) (day day_root)).
Proof. apply no_collision_b_sound. vm_compute. reflexivity. Qed.
Lemma day_fits w : session_fits (rocks_db 2) toy idc idc (usual w) (b_init _) (day day_root).
Proof. destruct w; repeat split; apply fitsb_sound; vm_compute; reflexivity. Qed.
Lemma day_keys w : fits (wref (usual w)) (1 + session_keys (day day_root)).
Proof. apply fitsb_sound. destruct w; vm_compute; reflexivity. Qed.
Lemma day_writes w : fits (wref (usual w)) (1 + session_writes (rocks_db 2) toy idc idc (b_init _) (day day_root)).
Proof. apply fitsb_sound. destruct w; vm_compute; reflexivity. Qed.

(** A build with reference counters of two bits: the fourth insertion of the
    same pair overflows. *)
Definition tiny (w : bool) : build := Bld 2 32 64 w (λ d, d).
Definition again : list (op 2 bytes) := replicate 4 (OpCall (CInsertOne 17 None K1 v1)).

(** The largest depth limit for which the depth of a tree can be counted. *)
Definition no_limit : nat := N.to_nat (2 ^ 64 - 2).
Lemma no_limit_fits w : fits (wptr (usual w)) (no_limit + 1).
Proof. unfold fits, no_limit. rewrite Nat2N.inj_add, N2Nat.id. destruct w; vm_compute; reflexivity. Qed.
Lemma no_limit_room w : ¬ fits (wptr (usual w) - 1) (no_limit * (2 + 1)).
Proof. unfold fits, no_limit. rewrite Nat2N.inj_mul, N2Nat.id. destruct w; vm_compute; discriminate. Qed.
Lemma no_limit_deep : 8 * 2 + 1 ≤ no_limit.
Proof. unfold no_limit. lia. Qed.

(** A database that has seen the first insertion of [day] and a half-written
    second one. *)
Definition m1 : call 2 bytes := CInsert 17 None [K1; K2; K3] [v1; v2; v3].
Definition ms1 : b_st (hash_db 2) := fin (hash_db 2) toy (exec idc idc m1) (b_init _).
Definition m2 : call 2 bytes := CInsert 17 (Some day_root) [K4; K2] [v1; v4].
Definition ms2 : b_st (hash_db 2) := (states (hash_db 2) toy (exec idc idc m2) ms1) !!! 20.
Definition mlg : list (list bytes) :=
  ([] ++ hlog (hash_db 2) toy (exec idc idc m1) (b_init _)) ++ hlog (hash_db 2) toy (exec idc idc m2) ms1.
Definition mw : nat :=
  0 + writes (hash_db 2) toy (exec idc idc m1) (b_init _) + writes (hash_db 2) toy (exec idc idc m2) ms1.
Lemma used_case : used (hash_db 2) toy idc idc ms2 mlg 5 mw.
Proof.
  apply (used_call (hash_db 2) toy idc idc ms1 _ 3 _ m2).
  - apply (used_call (hash_db 2) toy idc idc (b_init _) [] 0 0 m1); [apply used_init|apply run_in_states].
  - apply elem_of_list_lookup_total_2. vm_compute. lia.
Qed.
Definition m3 : prog 2 (arr 2) := insert idc 17 (Some day_root) [K5; K4] [v1; v2].
Lemma mlg_nc : no_collision toy mlg.
Proof. apply no_collision_b_sound. vm_compute. reflexivity. Qed.
Lemma mlg_nc2 : no_collision toy (mlg ++ hlog (hash_db 2) toy m3 ms2).
Proof. apply no_collision_b_sound. vm_compute. reflexivity. Qed.

Lemma room_refuted : ∀ w, ∃ (D : nat) (st : b_st (hash_db 2)) (lg : list (list bytes)) (r k : arr 2) (v : bytes)
    (Mp : gmap (arr 2) bytes),
  live (hash_db 2) toy idc idc st lg r Mp ∧ no_collision toy lg ∧ Mp !! k = Some v ∧
  fits 64 (D + 1) ∧ out (hash_db 2) toy (m_get_one (usual w) idc D r k) st = ROk (Some v) ∧
  out (hash_db 2) toy (m_generate_inclusion_proof (usual w) D r k) st = RPanic.
Proof.
  intros w.
  assert (live (hash_db 2) toy idc idc (s3 (hash_db 2)) (lg3 (hash_db 2)) (r2 (hash_db 2)) M2) as Hl.
  { exists (hs2 (hash_db 2)). split; [left; apply hash_scenario|left]. }
  assert (M2 !! K4 = Some v4) as HM by (vm_compute; reflexivity).
  destruct (live_machine (usual w) (Nat.lt_0_succ 1) (hash_db 2) toy idc idc idc_ok ltac:(by apply fitsb_sound)
    _ _ _ _ no_limit Hl hash_scenario_nc no_limit_deep (no_limit_fits w)) as (Hg & Hp & _).
  exists no_limit, (s3 (hash_db 2)), (lg3 (hash_db 2)), (r2 (hash_db 2)), K4, v4, M2. split_and!.
  - exact Hl.
  - exact hash_scenario_nc.
  - exact HM.
  - exact (no_limit_fits true).
  - rewrite <- HM. apply Hg.
  - apply Hp. apply no_limit_room.
Qed.

(** [short], checked by computation. *)
Definition short_b (lg : list (list bytes)) : bool := forallb (forallb (λ b, N.of_nat (length b) <? 2 ^ 64)%N) lg.
Lemma short_b_sound lg : short_b lg = true → short lg.
Proof.
  unfold short_b. rewrite forallb_forall. intros Hf x b Hx Hb.
  specialize (Hf x ltac:(by apply elem_of_list_In)). rewrite forallb_forall in Hf.
  apply N.ltb_lt. apply Hf. by apply elem_of_list_In.
Qed.
Lemma day_short : short (session_log (rocks_db 2) toy idc idc (b_init _) (day day_root)).
Proof. apply short_b_sound. vm_compute. reflexivity. Qed.

(** The history of Scenario.v. *)
Definition w3 : nat :=
  0 + writes (rocks_db 2) toy i1 (b_init _) + writes (rocks_db 2) toy (i2 (rocks_db 2)) (s1 (rocks_db 2)) +
  writes (rocks_db 2) toy (exec idc idc (c3 (rocks_db 2))) (s2 (rocks_db 2)).
Lemma used_s3 : used (rocks_db 2) toy idc idc (s3 (rocks_db 2)) (lg3 (rocks_db 2)) 6 w3.
Proof.
  apply (used_call (rocks_db 2) toy idc idc (s2 (rocks_db 2)) (lg2 (rocks_db 2)) 4 _ (c3 (rocks_db 2))); [|apply run_in_states].
  apply (used_insertion (rocks_db 2) toy idc idc (s1 (rocks_db 2)) (lg1 (rocks_db 2)) 2).
  apply (used_insertion (rocks_db 2) toy idc idc (b_init _) [] 0 0). apply used_init.
Qed.
Lemma lg3_short : short (lg3 (rocks_db 2)).
Proof. apply short_b_sound. vm_compute. reflexivity. Qed.
