(** * Damaged databases
    Used in the [Example]s of PropsLost.v.  [ws2], [wr2], [W2] are those of
    [C42_refuted] (Refuted.v): [insert(None, [K2, K1], [v2, v1])] returns [r1],
    [insert(Some(r1), [KX], [v5])] returns [wr2], which holds three pairs and has
    [r1] as a subtree.  [ws4] is the database after [remove(r1)], [remove(r1)]. *)
From Coq Require Import Strings.Byte NArith.
From stdpp Require Import prelude countable gmap sorting strings.
From Verif Require Import Model Bits Spec Logic Safe Claims Live Machine Weak Wild Lost Scenario Refuted.

Local Open Scope nat_scope.

Section Scenario8.
  Context (B : backend 2).
  Definition dlg : list (list bytes) := lg1 B ++ hlog B toy (w2 B) (s1 B).
  Lemma damaged_live : out B toy i1 (b_init B) = ROk (r1 B) → out B toy (w2 B) (s1 B) = ROk (wr2 B) →
    live B toy idc idc (ws2 B) dlg (wr2 B) W2.
  Proof.
    intros H1 H2. exists [(wr2 B, W2); (r1 B, M1)]. split; [right; apply rhist_whist; by apply twice_hist|left].
  Qed.
  Lemma damaged_twice : out B toy i1 (b_init B) = ROk (r1 B) → out B toy (w2 B) (s1 B) = ROk (wr2 B) →
    wild B toy idc idc (ws4 B) dlg.
  Proof.
    intros H1 H2. unfold ws4. eapply wild_remove; [|apply run_in_states]. unfold ws3.
    eapply wild_remove; [|apply run_in_states]. by eapply live_wild, damaged_live.
  Qed.
  (** Only the data node of [K1] is lost: [remove] of its location. *)
  Definition sd : b_st B := fin B toy (remove_prog B (ws2 B) (toy (data_in K1 v1))) (ws2 B).
  Lemma data_lost : out B toy i1 (b_init B) = ROk (r1 B) → out B toy (w2 B) (s1 B) = ROk (wr2 B) →
    wild B toy idc idc sd dlg.
  Proof. intros H1 H2. unfold sd. eapply wild_remove; [|apply run_in_states]. by eapply live_wild, damaged_live. Qed.
  (** [insert(Some(wr2), [K4], [v4])], on the intact database and on the damaged one. *)
  Definition d5 : prog 2 (arr 2) := insert idc 17 (Some (wr2 B)) [K4] [v4].
  (** A database in which the node at [l] has been replaced. *)
  Definition alter (st : b_st B) (l : arr 2) (nd : node 2) : b_st B := b_flush B (b_put B st l nd).
End Scenario8.

Lemma lost_refuted (B : backend 2) : B = hash_db 2 ∨ B = rocks_db 2 →
  ∃ st lg hs r1 M1 r M k v, rhist B toy idc idc st lg hs ∧ no_collision toy lg ∧ hs = [(r, M); (r1, M1)] ∧ r ≠ r1 ∧ M !! k = Some v ∧
    let st1 := fin B toy (remove_prog B st r1) st in
    let st2 := fin B toy (remove_prog B st1 r1) st1 in
    out B toy (get_one idc 17 r k) st2 = ROk None ∧
    (∃ lm, out B toy (get idc 17 r [k]) st2 = ROk lm ∧ lm !! k = Some None) ∧
    out B toy (generate_inclusion_proof 17 r k) st2 = RErr "Failed to find node".
Proof.
  intros HB. exists (ws2 B), (dlg B), [(wr2 B, W2); (r1 B, M1)], (r1 B), M1, (wr2 B), W2, K1, v1.
  split; [apply twice_hist; by destruct HB as [->| ->]; vm_compute|].
  split; [destruct HB as [->| ->]; nc|]. split; [done|].
  split; [destruct HB as [->| ->]; vm_compute; discriminate|].
  split; [by vm_compute|]. change (fin B toy (remove_prog B (ws2 B) (r1 B)) (ws2 B)) with (ws3 B).
  change (fin B toy (remove_prog B (ws3 B) (r1 B)) (ws3 B)) with (ws4 B). cbv zeta.
  split; [by destruct HB as [->| ->]; vm_compute|].
  split; [|by destruct HB as [->| ->]; vm_compute].
  assert (match out B toy (get idc 17 (wr2 B) [K1]) (ws4 B) with ROk lm => lm !! K1 | _ => None end = Some None) as Ht
    by (destruct HB as [->| ->]; vm_compute; reflexivity).
  destruct (out B toy (get idc 17 (wr2 B) [K1]) (ws4 B)) as [lm| | |] eqn:Ho; try discriminate Ht. exists lm. split; [exact Ho|exact Ht].
Qed.
Lemma alter_refuted (B : backend 2) : B = hash_db 2 ∨ B = rocks_db 2 →
  ∃ st lg r M k v, live B toy idc idc st lg r M ∧ no_collision toy lg ∧ M !! k = Some v ∧
    (∃ l nd v' p, let st' := alter B st l nd in v' ≠ v ∧
      out B toy (get_one idc 17 r k) st' = ROk (Some v') ∧
      out B toy (generate_inclusion_proof 17 r k) st' = ROk p ∧
      ∃ er, out B toy (verify_inclusion_proof idc r k v' p) st' = RErr er) ∧
    (∃ l nd, out B toy (get_one idc 17 r k) (alter B st l nd) = RPanic).
Proof.
  intros HB. exists (ws2 B), (dlg B), (wr2 B), W2, K1, v1.
  split; [apply damaged_live; by destruct HB as [->| ->]; vm_compute|].
  split; [destruct HB as [->| ->]; nc|]. split; [by vm_compute|]. split.
  - exists (toy (data_in K1 v1)), (Node 1 (VData v2)), v2,
      (the_root (out B toy (generate_inclusion_proof 17 (wr2 B) K1)
        (alter B (ws2 B) (toy (data_in K1 v1)) (Node 1 (VData v2)))) []). cbv zeta.
    split; [discriminate|]. split; [by destruct HB as [->| ->]; vm_compute|].
    split; [by destruct HB as [->| ->]; vm_compute|]. eexists. destruct HB as [->| ->]; vm_compute; reflexivity.
  - exists (wr2 B), (Node 1 (VBranch 3 K1 K1 200 K1)). by destruct HB as [->| ->]; vm_compute.
Qed.

(** The way to [K1] leads over [r1], which the second removal has destroyed; the way to [KX] is intact. *)
Lemma way_K1 : on_way (b_vis (hash_db 2) (ws2 (hash_db 2))) (wr2 (hash_db 2)) K1 (r1 (hash_db 2)).
Proof.
  exists (toy (leaf_in K1 (toy (data_in K1 v1)))), 1, (toy (data_in K1 v1)).
  assert (child (b_vis (hash_db 2) (ws2 (hash_db 2))) (wr2 (hash_db 2)) (r1 (hash_db 2))) as Hc1.
  { eexists. split; [vm_compute; reflexivity|]. left. }
  assert (child (b_vis (hash_db 2) (ws2 (hash_db 2))) (r1 (hash_db 2)) (toy (leaf_in K1 (toy (data_in K1 v1))))) as Hc2.
  { eexists. split; [vm_compute; reflexivity|]. left. }
  split; [vm_compute; reflexivity|]. split; [by do 2 (eapply rtc_l; [eassumption|])|].
  left. split; by eapply rtc_once.
Qed.
Lemma way_D1 : on_way (b_vis (hash_db 2) (ws2 (hash_db 2))) (wr2 (hash_db 2)) K1 (toy (data_in K1 v1)).
Proof.
  exists (toy (leaf_in K1 (toy (data_in K1 v1)))), 1, (toy (data_in K1 v1)).
  split; [vm_compute; reflexivity|]. split; [|by right].
  eapply rtc_l; [eexists; split; [vm_compute; reflexivity|]; left|]. eapply rtc_once. eexists. split; [vm_compute; reflexivity|]. left.
Qed.
(** The other nodes on the way to [K1] are still there after the loss of the data. *)
Lemma only_way y : on_way (b_vis (hash_db 2) (ws2 (hash_db 2))) (wr2 (hash_db 2)) K1 y → y ≠ toy (data_in K1 v1) →
  is_Some (b_vis (rocks_db 2) (sd (rocks_db 2)) !! y).
Proof.
  set (m := b_vis (hash_db 2) (ws2 (hash_db 2))). set (m' := b_vis (rocks_db 2) (sd (rocks_db 2))). set (dl := toy (data_in K1 v1)).
  assert (forallb (λ p : arr 2 * node 2, (bool_decide (p.1 = dl) || bool_decide (is_Some (m' !! p.1))) &&
    match var p.2 with VLeaf k d => negb (bool_decide (k = K1)) || bool_decide (d = dl) | _ => true end) (map_to_list m) = true) as Hc
    by (vm_compute; reflexivity).
  rewrite forallb_forall in Hc.
  assert (∀ x nd, m !! x = Some nd → x ≠ dl → is_Some (m' !! x)) as Hin.
  { intros x nd Hx Hne. apply elem_of_map_to_list, elem_of_list_In in Hx. apply Hc in Hx. cbn [fst] in Hx.
    apply andb_true_iff in Hx as [Hx _]. apply orb_true_iff in Hx as [Hx|Hx]; apply bool_decide_eq_true in Hx; [done|exact Hx]. }
  intros (l & rf & d & Hl & Hr & [[_ Hy]| ->]) Hne.
  - inversion Hy as [|? z ? (nd & Hnd & _) _]; subst; by eapply Hin.
  - apply elem_of_map_to_list, elem_of_list_In in Hl. apply Hc in Hl. cbn [fst snd var] in Hl.
    apply andb_true_iff in Hl as [_ Hl]. apply orb_true_iff in Hl as [Hl|Hl].
    + apply negb_true_iff, bool_decide_eq_false in Hl. done.
    + by apply bool_decide_eq_true in Hl.
Qed.
