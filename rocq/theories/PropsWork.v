(** * Work done by calls on any database
    Statements only; see PropsHist.v for the conventions.  [fetches], [writes], [deletes] and [flushes] count
    the calls of [get_node], [insert], [remove] and [batch_write] of the database, [hlog] lists the hash
    computations; an execution that fails counts until it fails. *)
From Coq Require Import Strings.Byte NArith.
From stdpp Require Import prelude countable gmap sorting strings.
From Verif Require Import Model Bits Spec Logic Safe Claims Live Struct Work Scenario Scenario3.

Local Open Scope nat_scope.

Notation HB := (hash_db 2). Notation RB := (rocks_db 2).

(** C81, insertion: [B] and [st] are arbitrary. *)
Theorem C81_insert :
  ∀ (n : nat) (B : backend n) (H : list bytes → arr n) (V : Type) (enc : V → res bytes) (dec : bytes → res V),
  0 < n → ∀ st D prev (ks : list (arr n)) vs, let p := insert enc D prev ks vs in
  fetches B H p st ≤ 1 + 2 * length ks * (D + 3) ∧ writes B H p st ≤ 3 * length ks * (D + 3) ∧
  length (hlog B H p st) ≤ length ks * (D + 5) ∧ flushes B H p st ≤ 8 * n ∧ deletes B H p st = 0.
Proof. intros n B H V enc dec Hn. exact (insert_work B H enc Hn). Qed.
Print Assumptions C81_insert.
(** A branch that is its own child, at the depth limit 30; all 16 bits of the keys are below it. *)
Example C81_insert_case : let st : b_st HB := {[ K1 := Node 7 (VBranch 1 K1 K1 15 K1) ]} in
  let p := insert idc 30 (Some K1) [K1; K4] [v1; v2] in
  is_ok (out HB toy p st) = false ∧ fetches HB toy p st = 67 ∧ fetches HB toy p st ≤ 133.
Proof.
  intros st p. split; [vm_compute; reflexivity|]. split; [vm_compute; reflexivity|].
  exact (proj1 (C81_insert 2 HB toy _ idc idc (Nat.lt_0_succ 1) st 30 (Some K1) [K1; K4] [v1; v2])).
Qed.

(** C81, reads and proofs. *)
Theorem C81_reads :
  ∀ (n : nat) (B : backend n) (H : list bytes → arr n) (V : Type) (enc : V → res bytes) (dec : bytes → res V),
  ∀ st D root (ks : list (arr n)) k v (proof : list (arr n * bool)),
  (let p := get dec D root ks in
     fetches B H p st ≤ 1 + 2 * length ks * (D + 2) ∧ hlog B H p st = [] ∧ writes B H p st + flushes B H p st + deletes B H p st = 0) ∧
  (let p := get_one dec D root k in
     fetches B H p st ≤ D + 1 ∧ hlog B H p st = [] ∧ writes B H p st + flushes B H p st + deletes B H p st = 0) ∧
  (let p := generate_inclusion_proof D root k in
     fetches B H p st ≤ D + 1 ∧ length (hlog B H p st) ≤ 2 ∧ writes B H p st + flushes B H p st + deletes B H p st = 0) ∧
  (let p := verify_inclusion_proof enc root k v proof in
     fetches B H p st = 0 ∧ length (hlog B H p st) ≤ length proof ∧ writes B H p st + flushes B H p st + deletes B H p st = 0).
Proof. intros n B H V enc dec. exact (read_work B H enc dec). Qed.
Print Assumptions C81_reads.
Example C81_reads_case : let st : b_st HB := {[ K1 := Node 7 (VBranch 1 K1 K1 15 K1) ]} in
  fetches HB toy (get idc 30 K1 [K1; K4]) st = 63 ∧ fetches HB toy (get idc 30 K1 [K1; K4]) st ≤ 129.
Proof.
  intros st. split; [vm_compute; reflexivity|].
  exact (proj1 (proj1 (C81_reads 2 HB toy _ idc idc st 30 K1 [K1; K4] K1 v1 []))).
Qed.

(** C81, removal: the work is in proportion to the number of nodes that disappear.  [b_flush B st = st]: no write is queued (always so with [HashTree], and with [RocksTree] unless an insertion has failed). *)
Theorem C81_remove :
  ∀ (n : nat) (B : backend n) (H : list bytes → arr n) st root, B = hash_db n ∨ B = rocks_db n → b_flush B st = st →
  let p := remove_prog B st root in
  fetches B H p st ≤ 1 + 2 * deletes B H p st ∧ writes B H p st + deletes B H p st ≤ fetches B H p st ∧
  hlog B H p st = [] ∧ flushes B H p st ≤ 1 ∧ size (b_vis B (fin B H p st)) + deletes B H p st = size (b_vis B st).
Proof.  exact (λ n B H, remove_work B H). Qed.
Print Assumptions C81_remove.
(** Removing [r1] while [r2], inserted onto it, is in use. *)
Example C81_remove_case : let p := remove_prog RB (s2 RB) (r1 RB) in
  deletes RB toy p (s2 RB) = 1 ∧ fetches RB toy p (s2 RB) ≤ 3 ∧ size (b_vis RB (fin RB toy p (s2 RB))) + 1 = size (b_vis RB (s2 RB)).
Proof.
  intros p. assert (deletes RB toy p (s2 RB) = 1) as Hd by (vm_compute; reflexivity).
  destruct (C81_remove 2 RB toy (s2 RB) (r1 RB)) as (H1 & _ & _ & _ & H2); [by right|vm_compute; reflexivity|].
  unfold p in *. rewrite Hd in H1, H2. split; [exact Hd|]. split; [exact H1|exact H2].
Qed.
