(** * Counterexamples
    Statements one would expect of the library which the code does not satisfy:
    each is refuted by a run of the model on concrete data, with a hash function
    that has no collision on the strings involved (Scenario.v). *)
From Coq Require Import Strings.Byte NArith.
From stdpp Require Import prelude countable gmap sorting strings.
From Verif Require Import Model Bits Spec Util Logic Claims Scenario.

Local Open Scope nat_scope.

Lemma not_holds (B : backend 2) (st : b_st B) r (M : gmap (arr 2) bytes) k v :
  out B toy (get_one idc 17 r k) st = ROk None → M !! k = Some v → ¬ holds B toy idc st r M.
Proof. intros Ho HM Hh. specialize (Hh 17 k ltac:(lia)). congruence. Qed.
Lemma lookup_updated {n V} (M : gmap (arr n) V) ks vs k v :
  (list_to_map (zip ks vs) : gmap (arr n) V) !! k = Some v → updated M ks vs !! k = Some v.
Proof. intros Hl. unfold updated. by apply lookup_union_Some_l. Qed.
Ltac nc := apply no_collision_b_sound; vm_compute; reflexivity.
Ltac nd := repeat (apply NoDup_cons; split; [intros Hin; repeat (apply elem_of_cons in Hin as [Hin|Hin]; [discriminate Hin|]); by apply elem_of_nil in Hin|]); apply NoDup_nil_2.

Definition KX : arr 2 := K x00 x80.
Definition KA : arr 2 := K x01 x00.
Definition K60 : arr 2 := K x00 x60.
Definition v5 : bytes := [x05].

(** ** C03, C05: hazardous batches *)
Section Hazard.
  Context (B : backend 2).
  (** The tree [{K1, K2}] of Scenario.v, state [s1]. *)
  Lemma first_hist : out B toy i1 (b_init B) = ROk (r1 B) → hist B toy idc idc (s1 B) (lg1 B) (hs1 B).
  Proof.
    intros H1. unfold s1, lg1, hs1, M1.
    eapply hist_insert with (prev := None); [apply hist_init|done|left; apply benign_empty|done].
  Qed.
  (** The tree [{K1, K2, K60}]. *)
  Definition j1 : prog 2 (arr 2) := insert idc 17 None [K1; K2; K60] [v1; v2; v5].
  Definition t1 : b_st B := fin B toy j1 (b_init B).
  Definition p1 : arr 2 := the_root (out B toy j1 (b_init B)) K1.
  Definition N1 : gmap (arr 2) bytes := updated ∅ [K1; K2; K60] [v1; v2; v5].
  Definition j2 : prog 2 (arr 2) := insert idc 17 (Some p1) [K3; KX; KA] [v3; v4; v5].
  Definition t2 : b_st B := fin B toy j2 t1.
  Definition p2 : arr 2 := the_root (out B toy j2 t1) K1.
  Lemma second_hist : out B toy j1 (b_init B) = ROk p1 →
    hist B toy idc idc t1 ([] ++ hlog B toy j1 (b_init B)) [(p1, N1)].
  Proof.
    intros H1. unfold t1, N1. eapply hist_insert with (prev := None); [apply hist_init|done|left; apply benign_empty|done].
  Qed.
End Hazard.

Lemma batch_refuted (B : backend 2) : B = hash_db 2 ∨ B = rocks_db 2 →
  (* a batch rejected as if it contained a duplicate key *)
  (∃ st lg hs r M ks vs, hist B toy idc idc st lg hs ∧ (r, M) ∈ hs ∧
     no_collision toy (lg ++ hlog B toy (insert idc 17 (Some r) ks vs) st) ∧
     length ks = length vs ∧ NoDup ks ∧ M !! K2 = Some v2 ∧ K2 ∈ ks ∧
     out B toy (insert idc 17 (Some r) ks vs) st = RErr "Attempted to insert item with duplicate keys") ∧
  (* a batch accepted with a root that has lost a key *)
  (∃ st lg hs r M ks vs r' k v, hist B toy idc idc st lg hs ∧ (r, M) ∈ hs ∧
     no_collision toy (lg ++ hlog B toy (insert idc 17 (Some r) ks vs) st) ∧
     length ks = length vs ∧ NoDup ks ∧
     out B toy (insert idc 17 (Some r) ks vs) st = ROk r' ∧
     M !! k = Some v ∧ k ∉ ks ∧
     out B toy (get_one idc 17 r' k) (fin B toy (insert idc 17 (Some r) ks vs) st) = ROk None) ∧
  (* a multi-key read that misses a key *)
  (∃ st lg hs r M ks lm k v, hist B toy idc idc st lg hs ∧ no_collision toy lg ∧ (r, M) ∈ hs ∧
     NoDup ks ∧ out B toy (get idc 17 r ks) st = ROk lm ∧ k ∈ ks ∧ M !! k = Some v ∧ lm !! k = Some None).
Proof.
  intros HB. split_and!.
  - exists (s1 B), (lg1 B), (hs1 B), (r1 B), M1, [K2; KX; KA], [v3; v4; v5].
    split; [apply first_hist; by destruct HB as [->| ->]; vm_compute|]. split; [left|].
    split; [destruct HB as [->| ->]; nc|]. split; [done|]. split; [nd|].
    split; [vm_compute; reflexivity|]. split; [left|]. destruct HB as [->| ->]; vm_compute; reflexivity.
  - exists (t1 B), ([] ++ hlog B toy j1 (b_init B)), [(p1 B, N1)], (p1 B), N1, [K3; KX; KA], [v3; v4; v5], (p2 B), K60, v5.
    split; [apply second_hist; by destruct HB as [->| ->]; vm_compute|]. split; [left|].
    split; [destruct HB as [->| ->]; nc|]. split; [done|]. split; [nd|].
    split; [destruct HB as [->| ->]; vm_compute; reflexivity|]. split; [vm_compute; reflexivity|].
    split; [intros Hin; repeat (apply elem_of_cons in Hin as [Hin|Hin]; [discriminate Hin|]); by apply elem_of_nil in Hin|].
    destruct HB as [->| ->]; vm_compute; reflexivity.
  - assert (∃ lm, out B toy (get idc 17 (r1 B) [K2; KX; KA]) (s1 B) = ROk lm ∧ lm !! K2 = Some None) as (lm & Hl & Hn).
    { destruct (out B toy (get idc 17 (r1 B) [K2; KX; KA]) (s1 B)) as [lm| | |] eqn:Ho.
      2-4: exfalso; assert (is_ok (out B toy (get idc 17 (r1 B) [K2; KX; KA]) (s1 B)) = true) as Ht
        by (destruct HB as [->| ->]; vm_compute; reflexivity); rewrite Ho in Ht; discriminate Ht.
      exists lm. split; [done|].
      assert (match out B toy (get idc 17 (r1 B) [K2; KX; KA]) (s1 B) with ROk lm => lm !! K2 | _ => None end = Some None)
        as Ht by (destruct HB as [->| ->]; vm_compute; reflexivity).
      by rewrite Ho in Ht. }
    exists (s1 B), (lg1 B), (hs1 B), (r1 B), M1, [K2; KX; KA], lm, K2, v2.
    split; [apply first_hist; by destruct HB as [->| ->]; vm_compute|].
    split; [destruct HB as [->| ->]; nc|]. split; [left|]. split; [nd|]. split; [done|]. split; [left|].
    split; [vm_compute; reflexivity|done].
Qed.

(** ** C20: a pair inserted twice
    [insert(None, [K1, K2])] gives [r1]; [insert(None, [K1, K2, KX])] meets the
    same branch [{K1, K2}] and stores it with count 1; removing [r1] deletes it. *)
Section Shared.
  Context (B : backend 2).
  Definition a2 : prog 2 (arr 2) := insert idc 17 None [K1; K2; KX] [v1; v2; v5].
  Definition as2 : b_st B := fin B toy a2 (s1 B).
  Definition ar2 : arr 2 := the_root (out B toy a2 (s1 B)) K1.
  Definition A2 : gmap (arr 2) bytes := updated ∅ [K1; K2; KX] [v1; v2; v5].
  Definition as3 : b_st B := fin B toy (remove_prog B as2 (r1 B)) as2.
  Lemma shared_hist : out B toy i1 (b_init B) = ROk (r1 B) → out B toy a2 (s1 B) = ROk ar2 →
    ahist B toy idc as2 (lg1 B ++ hlog B toy a2 (s1 B)) [(ar2, A2); (r1 B, M1)] ∧
    ahist B toy idc as3 (lg1 B ++ hlog B toy a2 (s1 B)) [(ar2, A2)].
  Proof.
    intros H1 H2.
    assert (ahist B toy idc as2 (lg1 B ++ hlog B toy a2 (s1 B)) [(ar2, A2); (r1 B, M1)]) as Hh.
    { unfold as2, A2. eapply ahist_insert with (prev := None); [|done|apply benign_empty|done].
      unfold s1, lg1, M1. eapply ahist_insert with (prev := None); [apply ahist_init|done|apply benign_empty|done]. }
    split; [done|]. unfold as3. eapply ahist_remove; [exact Hh|apply Permutation_swap].
  Qed.
End Shared.
Lemma remove_refuted (B : backend 2) : B = hash_db 2 ∨ B = rocks_db 2 →
  ∃ st lg hs r M, ahist B toy idc st lg hs ∧ no_collision toy lg ∧ (r, M) ∈ hs ∧ ¬ holds B toy idc st r M.
Proof.
  intros HB. exists (as3 B), (lg1 B ++ hlog B toy a2 (s1 B)), [(ar2 B, A2)], (ar2 B), A2.
  split; [apply shared_hist; by destruct HB as [->| ->]; vm_compute|].
  split; [destruct HB as [->| ->]; nc|]. split; [left|].
  apply not_holds with (k := K1) (v := v1); [by destruct HB as [->| ->]; vm_compute|by vm_compute].
Qed.

(** A hazardous batch of fresh pairs: [insert(Some(r1), [KX, KA])] opens the
    branch [{K1, K2}] although neither key passes it; the new tree reads
    correctly, and loses [K1] and [K2] when [r1] is removed. *)
Section Opened.
  Context (B : backend 2).
  Definition o2 : prog 2 (arr 2) := insert idc 17 (Some (r1 B)) [KX; KA] [v3; v4].
  Definition os2 : b_st B := fin B toy o2 (s1 B).
  Definition or2 : arr 2 := the_root (out B toy o2 (s1 B)) K1.
  Definition os3 : b_st B := fin B toy (remove_prog B os2 (r1 B)) os2.
End Opened.
Lemma benign_needed (B : backend 2) : B = hash_db 2 ∨ B = rocks_db 2 →
  rhist B toy idc idc (s1 B) (lg1 B) [(r1 B, M1)] ∧ fresh_pairs [(r1 B, M1)] [KX; KA] [v3; v4] ∧
  no_collision toy (lg1 B ++ hlog B toy (o2 B) (s1 B)) ∧
  out B toy (o2 B) (s1 B) = ROk (or2 B) ∧
  (∀ k, k ∈ [K1; K2; KX; KA] →
     out B toy (get_one idc 17 (or2 B) k) (os2 B) = ROk (updated M1 [KX; KA] [v3; v4] !! k)) ∧
  out B toy (get_one idc 17 (or2 B) K1) (os3 B) = ROk None.
Proof.
  intros HB. split_and!.
  - unfold s1, lg1, M1. eapply rhist_insert with (prev := None);
      [apply rhist_init|done|apply benign_empty|by intros r M k v ?%elem_of_nil|].
    by destruct HB as [->| ->]; vm_compute.
  - intros r M k v Hin. apply elem_of_list_singleton in Hin as [= -> ->].
    apply (fresh_b_sound [(K1, M1)] [KX; KA] [v3; v4]) with (r := K1); [vm_compute; reflexivity|left].
  - destruct HB as [->| ->]; nc.
  - by destruct HB as [->| ->]; vm_compute.
  - intros k Hk. repeat (apply elem_of_cons in Hk as [->|Hk]; [by destruct HB as [->| ->]; vm_compute|]).
    by apply elem_of_nil in Hk.
  - by destruct HB as [->| ->]; vm_compute.
Qed.

(** ** C21: a pair inserted again into its own tree *)
Section Again.
  Context (B : backend 2).
  Definition g2 : prog 2 (arr 2) := insert idc 17 (Some (r1 B)) [K1] [v1].
  Definition gs2 : b_st B := fin B toy g2 (s1 B).
  Definition gs3 : b_st B := fin B toy (remove_prog B gs2 (r1 B)) gs2.
  Definition gs4 : b_st B := fin B toy (remove_prog B gs3 (r1 B)) gs3.
  Lemma again_hist : out B toy i1 (b_init B) = ROk (r1 B) → out B toy g2 (s1 B) = ROk (r1 B) →
    ahist B toy idc gs4 (lg1 B ++ hlog B toy g2 (s1 B)) [].
  Proof.
    intros H1 H2. unfold gs4, gs3. eapply ahist_remove with (M := M1) (hs := [(r1 B, M1)]); [|done].
    eapply ahist_remove with (M := updated M1 [K1] [v1]) (hs := [(r1 B, updated M1 [K1] [v1]); (r1 B, M1)]); [|done].
    unfold gs2. eapply ahist_insert with (prev := Some (r1 B)); [|left|apply benign_single|done].
    unfold s1, lg1, M1. eapply ahist_insert with (prev := None); [apply ahist_init|done|apply benign_empty|done].
  Qed.
End Again.
Lemma leak_refuted (B : backend 2) : B = hash_db 2 ∨ B = rocks_db 2 →
  ∃ st lg, ahist B toy idc st lg [] ∧ no_collision toy lg ∧ b_vis B st ≠ ∅.
Proof.
  intros HB. exists (gs4 B), (lg1 B ++ hlog B toy (g2 B) (s1 B)).
  split; [apply again_hist; by destruct HB as [->| ->]; vm_compute|].
  split; [destruct HB as [->| ->]; nc|]. intros He. apply map_size_empty_iff in He.
  destruct HB as [->| ->]; vm_compute in He; discriminate He.
Qed.

(** ** C42: a root that became part of another, removed twice *)
Section Twice.
  Context (B : backend 2).
  Definition w2 : prog 2 (arr 2) := insert idc 17 (Some (r1 B)) [KX] [v5].
  Definition ws2 : b_st B := fin B toy w2 (s1 B).
  Definition wr2 : arr 2 := the_root (out B toy w2 (s1 B)) K1.
  Definition W2 : gmap (arr 2) bytes := updated M1 [KX] [v5].
  Definition ws3 : b_st B := fin B toy (remove_prog B ws2 (r1 B)) ws2.
  Definition ws4 : b_st B := fin B toy (remove_prog B ws3 (r1 B)) ws3.
  Lemma twice_hist : out B toy i1 (b_init B) = ROk (r1 B) → out B toy w2 (s1 B) = ROk wr2 →
    rhist B toy idc idc ws2 (lg1 B ++ hlog B toy w2 (s1 B)) [(wr2, W2); (r1 B, M1)].
  Proof.
    intros H1 H2. unfold ws2, W2. eapply rhist_insert with (prev := Some (r1 B)); [|left|apply benign_single| |done].
    - unfold s1, lg1, M1. eapply rhist_insert with (prev := None);
        [apply rhist_init|done|apply benign_empty|by intros r M k v ?%elem_of_nil|done].
    - intros r M k v Hin. apply elem_of_list_singleton in Hin as [= -> ->].
      apply (fresh_b_sound [(K1, M1)] [KX] [v5]) with (r := K1); [vm_compute; reflexivity|left].
  Qed.
End Twice.
Lemma twice_refuted (B : backend 2) : B = hash_db 2 ∨ B = rocks_db 2 →
  ∃ st lg hs r M hs' r' M', rhist B toy idc idc st lg hs ∧ no_collision toy lg ∧
    hs ≡ₚ (r, M) :: hs' ∧ (r', M') ∈ hs' ∧
    let st1 := fin B toy (remove_prog B st r) st in
    let st2 := fin B toy (remove_prog B st1 r) st1 in
    ¬ holds B toy idc st2 r' M'.
Proof.
  intros HB. exists (ws2 B), (lg1 B ++ hlog B toy (w2 B) (s1 B)), [(wr2 B, W2); (r1 B, M1)], (r1 B), M1,
    [(wr2 B, W2)], (wr2 B), W2.
  split; [apply twice_hist; by destruct HB as [->| ->]; vm_compute|].
  split; [destruct HB as [->| ->]; nc|]. split; [apply Permutation_swap|]. split; [left|].
  change (¬ holds B toy idc (ws4 B) (wr2 B) W2).
  apply not_holds with (k := K1) (v := v1); [by destruct HB as [->| ->]; vm_compute|by vm_compute].
Qed.

(** ** C45: a failing insertion, then a removal *)
Section Failing.
  Context (B : backend 2).
  Definition f2 : prog 2 (arr 2) := insert idc 17 (Some (r1 B)) [K1; K1] [v1; v1].
  Definition fs2 : b_st B := fin B toy f2 (s1 B).
End Failing.
Lemma failing_refuted (B : backend 2) : B = hash_db 2 ∨ B = rocks_db 2 →
  (∃ er, out B toy (f2 B) (s1 B) = RErr er) ∧
  no_collision toy (lg1 B ++ hlog B toy (f2 B) (s1 B)) ∧
  b_vis B (fin B toy (remove_prog B (s1 B) (r1 B)) (s1 B)) = ∅ ∧
  b_vis B (fin B toy (remove_prog B (fs2 B) (r1 B)) (fs2 B)) ≠ ∅.
Proof.
  intros HB. split_and!.
  - eexists. destruct HB as [->| ->]; vm_compute; reflexivity.
  - destruct HB as [->| ->]; nc.
  - apply map_size_empty_inv. destruct HB as [->| ->]; vm_compute; reflexivity.
  - intros He. apply map_size_empty_iff in He. destruct HB as [->| ->]; vm_compute in He; discriminate He.
Qed.

(** ** C25: depth limits *)
Lemma depth_refuted (B : backend 2) : B = hash_db 2 ∨ B = rocks_db 2 →
  (∃ r, out B toy (insert idc 0 None [K1; K2] [v1; v2]) (b_init B) = ROk r ∧
     ∃ er, out B toy (get idc 0 r [K1; K2]) (fin B toy (insert idc 0 None [K1; K2] [v1; v2]) (b_init B)) = RErr er) ∧
  (∃ r, out B toy (insert idc 1 None [K1; K2] [v1; v2]) (b_init B) = ROk r ∧
     let st := fin B toy (insert idc 1 None [K1; K2] [v1; v2]) (b_init B) in
     is_ok (out B toy (get idc 1 r [K1]) st) = true ∧ ∃ er, out B toy (get_one idc 1 r K1) st = RErr er).
Proof.
  intros HB. split.
  - destruct (is_ok_true (out B toy (insert idc 0 None [K1; K2] [v1; v2]) (b_init B))) as [r Hr].
    { destruct HB as [->| ->]; vm_compute; reflexivity. }
    exists r. split; [done|]. assert (r = r1 B) as ->.
    { destruct HB as [->| ->]; vm_compute in Hr; injection Hr as <-; vm_compute; reflexivity. }
    eexists. destruct HB as [->| ->]; vm_compute; reflexivity.
  - destruct (is_ok_true (out B toy (insert idc 1 None [K1; K2] [v1; v2]) (b_init B))) as [r Hr].
    { destruct HB as [->| ->]; vm_compute; reflexivity. }
    exists r. split; [done|]. assert (r = r1 B) as ->.
    { destruct HB as [->| ->]; vm_compute in Hr; injection Hr as <-; vm_compute; reflexivity. }
    split; [destruct HB as [->| ->]; vm_compute; reflexivity|].
    eexists. destruct HB as [->| ->]; vm_compute; reflexivity.
Qed.

(** ** C15: a root that is not genuine
    The root [H("b", leaf(K1, v1), leaf(K1, v2))] has a verifying proof of
    [K1 = v1] and one of [K1 = v2]. *)
Definition fd (v : bytes) : arr 2 := toy (data_in K1 v).
Definition fl (v : bytes) : arr 2 := toy (leaf_in K1 (fd v)).
Definition froot : arr 2 := toy (branch_in (fl v1) (fl v2)).
Lemma forged_refuted :
  ∃ root (k : arr 2) (v v' : bytes) p p', v ≠ v' ∧
    (∀ (B : backend 2) (st : b_st B), out B toy (verify_inclusion_proof idc root k v p) st = ROk tt ∧
       out B toy (verify_inclusion_proof idc root k v' p') st = ROk tt ∧
       no_collision toy (hlog B toy (verify_inclusion_proof idc root k v p) st ++
                         hlog B toy (verify_inclusion_proof idc root k v' p') st)).
Proof.
  exists froot, K1, v1, v2, [(fd v1, false); (fl v1, false); (fl v2, true)], [(fd v2, false); (fl v2, false); (fl v1, false)].
  split; [done|]. intros B st. split_and!; [vm_compute; reflexivity|vm_compute; reflexivity|nc].
Qed.

(** ** C57: the caller's buffers *)
Lemma buffers_refuted : ∀ B : backend 2, B = hash_db 2 ∨ B = rocks_db 2 →
  ∃ ks vs r r', NoDup ks ∧ length ks = length vs ∧
    out B toy (insert idc 17 None ks vs) (b_init B) = ROk r ∧
    let st := fin B toy (insert idc 17 None ks vs) (b_init B) in
    let again := insert idc 17 None (keys_after_insert ks vs) vs in
    no_collision toy (hlog B toy (insert idc 17 None ks vs) (b_init B) ++ hlog B toy again st) ∧
    out B toy again st = ROk r' ∧
    out B toy (get_one idc 17 r K1) (fin B toy again st) = ROk (Some v1) ∧
    out B toy (get_one idc 17 r' K1) (fin B toy again st) = ROk (Some v2).
Proof.
  intros B HB. exists [K2; K1], [v2; v1], (r1 B),
    (the_root (out B toy (insert idc 17 None (keys_after_insert [K2; K1] [v2; v1]) [v2; v1]) (s1 B)) K1).
  split; [by apply (bool_decide_unpack (NoDup [K2; K1])); vm_compute|]. split; [done|].
  destruct HB as [-> | ->]; (split; [vm_compute; reflexivity|]; cbv zeta; split; [apply no_collision_b_sound; vm_compute; reflexivity|]; split_and!; vm_compute; reflexivity).
Qed.
