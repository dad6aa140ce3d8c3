(** * The same calls under two releases of Rust
    A tree of three keys and a batch of eight; see Release.v. *)
From Coq Require Import Strings.Byte NArith.
From stdpp Require Import prelude countable gmap sorting strings.
From Verif Require Import Model Bits Spec Logic Hist Claims Live Release Scenario Refuted.

Local Open Scope nat_scope.

Definition rkeys : list (arr 2) := [K x00 x01; K x00 x20; K x00 x21].
Definition rbatch (k : arr 2) : list (arr 2) :=
  [K x00 x00; k; K x00 x40; K x00 x60; K x00 x80; K x00 xa0; K x00 xe0; K x20 x00].
Definition rvals : list bytes := [v1; v2; v3; v4; v5; v1; v2; v3].
Definition rtree : prog 2 (arr 2) := insert idc 17 None rkeys [v1; v2; v4].
Definition RM : gmap (arr 2) bytes := updated ∅ rkeys [v1; v2; v4].
Section Scenario13.
  Context (B : backend 2).
  Definition rst : b_st B := fin B toy rtree (b_init B).
  Definition rroot : arr 2 := the_root (out B toy rtree (b_init B)) K1.
  Definition rlog : list (list bytes) := [] ++ hlog B toy rtree (b_init B).
  Lemma rel_hist : out B toy rtree (b_init B) = ROk rroot → hist B toy idc idc rst rlog [(rroot, RM)].
  Proof.
    intros H1. unfold rst, rlog, RM. eapply hist_insert with (prev := None); [apply hist_init|done|left; apply benign_empty|done].
  Qed.
  Lemma rel_live : out B toy rtree (b_init B) = ROk rroot → live B toy idc idc rst rlog rroot RM.
  Proof. intros H1. exists [(rroot, RM)]. split; [left; by apply rel_hist|by left]. Qed.
  Definition rins (k : arr 2) : prog 2 (arr 2) := insert idc 17 (Some rroot) (rbatch k) rvals.
  Definition rins' (k : arr 2) : prog 2 (arr 2) := insert_with pp_1_82 idc 17 (Some rroot) (rbatch k) rvals.
End Scenario13.

Ltac nc := apply no_collision_b_sound; vm_compute; reflexivity.
Ltac nd := apply (bool_decide_unpack _); vm_compute; exact I.
Lemma release_refuted (B : backend 2) : B = hash_db 2 ∨ B = rocks_db 2 →
  (* the same batch is accepted and rejected *)
  (∃ st lg r M ks vs r', live B toy idc idc st lg r M ∧ length ks = length vs ∧ NoDup ks ∧
     no_collision toy (lg ++ hlog B toy (insert idc 17 (Some r) ks vs) st ++ hlog B toy (insert_with pp_1_82 idc 17 (Some r) ks vs) st) ∧
     out B toy (insert idc 17 (Some r) ks vs) st = ROk r' ∧
     out B toy (insert_with pp_1_82 idc 17 (Some r) ks vs) st = RErr "Attempted to insert item with duplicate keys") ∧
  (* the same batch gives two different roots *)
  (∃ st lg r M ks vs r1 r2, live B toy idc idc st lg r M ∧ length ks = length vs ∧ NoDup ks ∧
     no_collision toy (lg ++ hlog B toy (insert idc 17 (Some r) ks vs) st ++ hlog B toy (insert_with pp_1_82 idc 17 (Some r) ks vs) st) ∧
     out B toy (insert idc 17 (Some r) ks vs) st = ROk r1 ∧
     out B toy (insert_with pp_1_82 idc 17 (Some r) ks vs) st = ROk r2 ∧ r1 ≠ r2) ∧
  (* the same request finds a key and does not *)
  (∃ st lg r M ks lm1 lm2 k v, live B toy idc idc st lg r M ∧ no_collision toy lg ∧ NoDup ks ∧
     out B toy (get idc 17 r ks) st = ROk lm1 ∧ out B toy (get_with pp_1_82 bs_1_82 idc 17 r ks) st = ROk lm2 ∧
     lm1 !! k = Some (Some v) ∧ lm2 !! k = Some None).
Proof.
  intros HB. assert (live B toy idc idc (rst B) (rlog B) (rroot B) RM) as Hl.
  { apply rel_live. by destruct HB as [->| ->]; vm_compute. }
  split_and!.
  - exists (rst B), (rlog B), (rroot B), RM, (rbatch (K x00 x20)), rvals.
    assert (is_ok (out B toy (rins B (K x00 x20)) (rst B)) = true) as Hok by (destruct HB as [->| ->]; vm_compute; reflexivity).
    apply is_ok_true in Hok as [r' Hr']. exists r'. split; [exact Hl|]. split; [reflexivity|]. split; [nd|].
    split; [destruct HB as [->| ->]; nc|]. split; [exact Hr'|]. destruct HB as [->| ->]; vm_compute; reflexivity.
  - exists (rst B), (rlog B), (rroot B), RM, (rbatch (K x00 x21)), rvals.
    exists (the_root (out B toy (rins B (K x00 x21)) (rst B)) K1), (the_root (out B toy (rins' B (K x00 x21)) (rst B)) K1).
    split; [exact Hl|]. split; [reflexivity|]. split; [nd|]. split; [destruct HB as [->| ->]; nc|].
    split; [destruct HB as [->| ->]; vm_compute; reflexivity|]. split; [destruct HB as [->| ->]; vm_compute; reflexivity|].
    destruct HB as [->| ->]; vm_compute; discriminate.
  - exists (rst B), (rlog B), (rroot B), RM, (rbatch (K x00 x21)).
    assert (match out B toy (get idc 17 (rroot B) (rbatch (K x00 x21))) (rst B) with ROk lm => lm !! K x00 x21 | _ => None end = Some (Some v4)) as Ho1
      by (destruct HB as [->| ->]; vm_compute; reflexivity).
    assert (match out B toy (get_with pp_1_82 bs_1_82 idc 17 (rroot B) (rbatch (K x00 x21))) (rst B) with ROk lm => lm !! K x00 x21 | _ => None end = Some None) as Ho2
      by (destruct HB as [->| ->]; vm_compute; reflexivity).
    destruct (out B toy (get idc 17 (rroot B) (rbatch (K x00 x21))) (rst B)) as [lm1| | |] eqn:E1; try discriminate Ho1.
    destruct (out B toy (get_with pp_1_82 bs_1_82 idc 17 (rroot B) (rbatch (K x00 x21))) (rst B)) as [lm2| | |] eqn:E2; try discriminate Ho2.
    exists lm1, lm2, (K x00 x21), v4. split; [exact Hl|]. split; [destruct HB as [->| ->]; nc|]. split; [nd|].
    split; [reflexivity|]. split; [reflexivity|]. exact (conj Ho1 Ho2).
Qed.
