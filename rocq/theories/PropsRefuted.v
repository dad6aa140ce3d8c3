(** * Statements the code does not satisfy
    Each theorem exhibits a run of the model contradicting the property as a
    user would state it.  [toy] is a hash function without collisions on the
    strings hashed in the run ([no_collision], checked by computation).  The
    runs are on both backends. *)
From Coq Require Import Strings.Byte NArith.
From stdpp Require Import prelude countable gmap sorting strings.
From Verif Require Import Model Bits Spec Logic Claims Scenario Refuted.

Local Open Scope nat_scope.

(** C03: a batch of distinct keys rejected as if it contained a duplicate, and a batch accepted with a
    root that has lost a key of the old tree. *)
Theorem C03_refuted :
  ∀ B : backend 2, B = hash_db 2 ∨ B = rocks_db 2 →
  (∃ st lg hs r M ks vs, hist B toy idc idc st lg hs ∧ (r, M) ∈ hs ∧
     no_collision toy (lg ++ hlog B toy (insert idc 17 (Some r) ks vs) st) ∧
     length ks = length vs ∧ NoDup ks ∧ M !! K2 = Some v2 ∧ K2 ∈ ks ∧
     out B toy (insert idc 17 (Some r) ks vs) st = RErr "Attempted to insert item with duplicate keys") ∧
  (∃ st lg hs r M ks vs r' k v, hist B toy idc idc st lg hs ∧ (r, M) ∈ hs ∧
     no_collision toy (lg ++ hlog B toy (insert idc 17 (Some r) ks vs) st) ∧
     length ks = length vs ∧ NoDup ks ∧
     out B toy (insert idc 17 (Some r) ks vs) st = ROk r' ∧
     M !! k = Some v ∧ k ∉ ks ∧
     out B toy (get_one idc 17 r' k) (fin B toy (insert idc 17 (Some r) ks vs) st) = ROk None).
Proof.  intros B HB. destruct (batch_refuted B HB) as (H1 & H2 & _). exact (conj H1 H2). Qed.
Print Assumptions C03_refuted.

(** C05: a multi-key read reporting a present key as absent. *)
Theorem C05_refuted :
  ∀ B : backend 2, B = hash_db 2 ∨ B = rocks_db 2 →
  ∃ st lg hs r M ks lm k v, hist B toy idc idc st lg hs ∧ no_collision toy lg ∧ (r, M) ∈ hs ∧
     NoDup ks ∧ out B toy (get idc 17 r ks) st = ROk lm ∧ k ∈ ks ∧ M !! k = Some v ∧ lm !! k = Some None.
Proof.  intros B HB. exact (proj2 (proj2 (batch_refuted B HB))). Qed.
Print Assumptions C05_refuted.

(** C15: a made-up root proving two values for one key, without any hash collision. *)
Theorem C15_refuted :
  ∃ root (k : arr 2) (v v' : bytes) p p', v ≠ v' ∧
    (∀ (B : backend 2) (st : b_st B), out B toy (verify_inclusion_proof idc root k v p) st = ROk tt ∧
       out B toy (verify_inclusion_proof idc root k v' p') st = ROk tt ∧
       no_collision toy (hlog B toy (verify_inclusion_proof idc root k v p) st ++
                         hlog B toy (verify_inclusion_proof idc root k v' p') st)).
Proof.  exact forged_refuted. Qed.
Print Assumptions C15_refuted.

(** C20: [ahist] allows a pair to be inserted while a live root holds it. *)
Theorem C20_refuted :
  ∀ B : backend 2, B = hash_db 2 ∨ B = rocks_db 2 →
  ∃ st lg hs r M, ahist B toy idc st lg hs ∧ no_collision toy lg ∧ (r, M) ∈ hs ∧ ¬ holds B toy idc st r M.
Proof.  exact remove_refuted. Qed.
Print Assumptions C20_refuted.

(** C20: fresh pairs do not suffice either; a hazardous batch opens a branch that no key of it passes, and
    the new root loses keys when the old one is removed.  [o2] is the insertion, [os3] the state after the removal. *)
Theorem C20_benign_needed :
  ∀ B : backend 2, B = hash_db 2 ∨ B = rocks_db 2 →
  rhist B toy idc idc (s1 B) (lg1 B) [(r1 B, M1)] ∧ fresh_pairs [(r1 B, M1)] [KX; KA] [v3; v4] ∧
  no_collision toy (lg1 B ++ hlog B toy (o2 B) (s1 B)) ∧
  out B toy (o2 B) (s1 B) = ROk (or2 B) ∧
  (∀ k, k ∈ [K1; K2; KX; KA] →
     out B toy (get_one idc 17 (or2 B) k) (os2 B) = ROk (updated M1 [KX; KA] [v3; v4] !! k)) ∧
  out B toy (get_one idc 17 (or2 B) K1) (os3 B) = ROk None.
Proof.  exact benign_needed. Qed.
Print Assumptions C20_benign_needed.

(** C21: every handle was removed and the database is not empty. *)
Theorem C21_refuted :
  ∀ B : backend 2, B = hash_db 2 ∨ B = rocks_db 2 →
  ∃ st lg, ahist B toy idc st lg [] ∧ no_collision toy lg ∧ b_vis B st ≠ ∅.
Proof.  exact leak_refuted. Qed.
Print Assumptions C21_refuted.

(** C25: with depth limit 0 an accepted batch cannot be read; with depth limit 1 [get] succeeds and [get_one] fails. *)
Theorem C25_refuted :
  ∀ B : backend 2, B = hash_db 2 ∨ B = rocks_db 2 →
  (∃ r, out B toy (insert idc 0 None [K1; K2] [v1; v2]) (b_init B) = ROk r ∧
     ∃ er, out B toy (get idc 0 r [K1; K2]) (fin B toy (insert idc 0 None [K1; K2] [v1; v2]) (b_init B)) = RErr er) ∧
  (∃ r, out B toy (insert idc 1 None [K1; K2] [v1; v2]) (b_init B) = ROk r ∧
     let st := fin B toy (insert idc 1 None [K1; K2] [v1; v2]) (b_init B) in
     is_ok (out B toy (get idc 1 r [K1]) st) = true ∧ ∃ er, out B toy (get_one idc 1 r K1) st = RErr er).
Proof.  exact depth_refuted. Qed.
Print Assumptions C25_refuted.

(** C42: removing a root a second time destroys another live root, even in histories where C20 holds. *)
Theorem C42_refuted :
  ∀ B : backend 2, B = hash_db 2 ∨ B = rocks_db 2 →
  ∃ st lg hs r M hs' r' M', rhist B toy idc idc st lg hs ∧ no_collision toy lg ∧
    hs ≡ₚ (r, M) :: hs' ∧ (r', M') ∈ hs' ∧
    let st1 := fin B toy (remove_prog B st r) st in
    let st2 := fin B toy (remove_prog B st1 r) st1 in
    ¬ holds B toy idc st2 r' M'.
Proof.  exact twice_refuted. Qed.
Print Assumptions C42_refuted.

(** C45: [f2] is a rejected batch ([K1] twice), [fs2] the state after it; without it, removing [r1] empties
    the database, with it nodes are left behind. *)
Theorem C45_refuted :
  ∀ B : backend 2, B = hash_db 2 ∨ B = rocks_db 2 →
  (∃ er, out B toy (f2 B) (s1 B) = RErr er) ∧
  no_collision toy (lg1 B ++ hlog B toy (f2 B) (s1 B)) ∧
  b_vis B (fin B toy (remove_prog B (s1 B) (r1 B)) (s1 B)) = ∅ ∧
  b_vis B (fin B toy (remove_prog B (fs2 B) (r1 B)) (fs2 B)) ≠ ∅.
Proof.  exact failing_refuted. Qed.
Print Assumptions C45_refuted.
