(** * Storage taken by trees and work done by calls
    Statements only; see PropsHist.v for the conventions.  [child], [on_way], [rhist], [whist] and [live]
    are defined in Spec.v. *)
From Coq Require Import Strings.Byte NArith.
From stdpp Require Import prelude countable gmap sorting strings.
From Verif Require Import Model Bits Spec Logic Safe Claims Live Regrow Weak Cost Scenario Scenario3 Scenario4.

Local Open Scope nat_scope.

Notation HB := (hash_db 2). Notation RB := (rocks_db 2).

(** C68: the nodes reachable from a root. *)
Theorem C68_tree_size :
  ∀ (n : nat) (B : backend n) (HB : BackendOk B) (H : list bytes → arr n)
    (V : Type) (enc : V → res bytes) (dec : bytes → res V), 0 < n → codec_ok enc dec →
  ∀ st lg r M, live B H enc dec st lg r M → no_collision H lg →
  ∃ ls, NoDup ls ∧ length ls + 1 = 3 * size M ∧ ∀ x : arr n, x ∈ ls ↔ rtc (child (b_vis B st)) r x.
Proof. intros n B HB H V enc dec Hn Hc. exact (tree_size Hn B H enc dec Hc). Qed.
Print Assumptions C68_tree_size.
Example C68_tree_size_case : ∃ ls : list (arr 2), NoDup ls ∧ length ls = 11 ∧
  ∀ x, x ∈ ls ↔ rtc (child (b_vis HB (s3 HB))) (r2 HB) x.
Proof.
  destruct (C68_tree_size 2 HB _ toy _ idc idc (Nat.lt_0_succ 1) idc_ok (s3 HB) (lg3 HB) (r2 HB) M2) as (ls & Hnd & Hl & Hx);
    [exists (hs2 HB); split; [right; exact hash_failed|left]|exact hash_scenario_nc|].
  exists ls. split; [exact Hnd|]. split; [|exact Hx].
  apply (proj1 (Nat.add_cancel_r _ _ 1)). etransitivity; [exact Hl|vm_compute; reflexivity].
Qed.

(** C68: without failed calls, the database consists of the nodes of the roots in use. *)
Theorem C68_store :
  ∀ (n : nat) (B : backend n) (HB : BackendOk B) (H : list bytes → arr n)
    (V : Type) (enc : V → res bytes) (dec : bytes → res V), 0 < n → codec_ok enc dec →
  ∀ st lg hs (x : arr n), rhist B H enc dec st lg hs → no_collision H lg →
  is_Some (b_vis B st !! x) ↔ ∃ r M, (r, M) ∈ hs ∧ rtc (child (b_vis B st)) r x.
Proof. intros n B HB H V enc dec Hn Hc. exact (store_exact Hn B H enc dec Hc). Qed.
Print Assumptions C68_store.
Example C68_store_case : ∃ r M, (r, M) ∈ hs4 RB ∧ rtc (child (b_vis RB (q4 RB))) r (toy (data_in K4 v4)).
Proof.
  apply (C68_store 2 RB _ toy _ idc idc (Nat.lt_0_succ 1) idc_ok _ _ _ _ rocks_scenario2 rocks_scenario2_nc). vm_compute. by eexists.
Qed.

(** C68: its size. *)
Theorem C68_store_size :
  ∀ (n : nat) (B : backend n) (HB : BackendOk B) (H : list bytes → arr n)
    (V : Type) (enc : V → res bytes) (dec : bytes → res V), 0 < n → codec_ok enc dec →
  ∀ st lg hs, rhist B H enc dec st lg hs → no_collision H lg →
  size (b_vis B st) ≤ sum_list_with (λ h : arr n * gmap (arr n) V, 3 * size h.2 - 1) hs ∧
  ∀ r M, hs = [(r, M)] → size (b_vis B st) + 1 = 3 * size M.
Proof. intros n B HB H V enc dec Hn Hc. exact (store_size Hn B H enc dec Hc). Qed.
Print Assumptions C68_store_size.
(** One root is left after the removal of the other. *)
Example C68_store_size_case : size (b_vis HB (q2 HB)) + 1 = 3 * size M2.
Proof.
  refine (proj2 (C68_store_size 2 HB _ toy _ idc idc (Nat.lt_0_succ 1) idc_ok _ _ _ hash_mid _) _ _ eq_refl).
  apply no_collision_b_sound. vm_compute. reflexivity.
Qed.

(** C69: an insertion hashes once per node on the way to a key of the batch in the new tree. *)
Theorem C69_hashes :
  ∀ (n : nat) (B : backend n) (HB : BackendOk B) (H : list bytes → arr n)
    (V : Type) (enc : V → res bytes) (dec : bytes → res V), 0 < n → codec_ok enc dec →
  ∀ st lg hs Dep prev M ks vs r,
  hist B H enc dec st lg hs ∨ whist B H enc dec st lg hs →
  no_collision H (lg ++ hlog B H (insert enc Dep prev ks vs) st) → prev_holds hs prev M → benign M ks →
  out B H (insert enc Dep prev ks vs) st = ROk r →
  ∃ ls, NoDup ls ∧ length ls = length (hlog B H (insert enc Dep prev ks vs) st) ∧
    ∀ x : arr n, x ∈ ls ↔ ∃ k, k ∈ ks ∧ on_way (b_vis B (fin B H (insert enc Dep prev ks vs) st)) r k x.
Proof. intros n B HB H V enc dec Hn Hc. exact (insert_hashes Hn B H enc dec Hc). Qed.
Print Assumptions C69_hashes.
Example C69_hashes_case : length (hlog HB toy (i2 HB) (s1 HB)) = 7 ∧ ∃ ls : list (arr 2), NoDup ls ∧ length ls = 7 ∧
  ∀ x, x ∈ ls ↔ ∃ k, k ∈ [K3; K4] ∧ on_way (b_vis HB (s2 HB)) (r2 HB) k x.
Proof.
  assert (length (hlog HB toy (i2 HB) (s1 HB)) = 7) as Hl by (vm_compute; reflexivity).
  split; [exact Hl|].
  destruct (C69_hashes 2 HB _ toy _ idc idc (Nat.lt_0_succ 1) idc_ok (s1 HB) (lg1 HB) (hs1 HB) 17 (Some (r1 HB)) M1 [K3; K4] [v3; v4] (r2 HB)) as (ls & Hnd & Hls & Hx);
    [right; apply first_whist; left; reflexivity|apply no_collision_b_sound; vm_compute; reflexivity|left
    |apply hazard_b_sound; vm_compute; reflexivity|vm_compute; reflexivity|].
  exists ls. split; [exact Hnd|]. split; [etransitivity; [exact Hls|exact Hl]|exact Hx].
Qed.

(** C69: for one key, as many as the inclusion proof of the key in the new tree has entries. *)
Theorem C69_one :
  ∀ (n : nat) (B : backend n) (HB : BackendOk B) (H : list bytes → arr n)
    (V : Type) (enc : V → res bytes) (dec : bytes → res V), 0 < n → codec_ok enc dec →
  ∀ st lg hs Dep prev M k v r,
  hist B H enc dec st lg hs ∨ whist B H enc dec st lg hs →
  no_collision H (lg ++ hlog B H (insert_one enc Dep prev k v) st) → prev_holds hs prev M →
  out B H (insert_one enc Dep prev k v) st = ROk r →
  ∃ p, (∀ D', 8 * n + 1 ≤ D' →
      out B H (generate_inclusion_proof D' r k) (fin B H (insert_one enc Dep prev k v) st) = ROk p) ∧
    length (hlog B H (insert_one enc Dep prev k v) st) = length p.
Proof. intros n B HB H V enc dec Hn Hc. exact (insert_one_hashes Hn B H enc dec Hc). Qed.
Print Assumptions C69_one.
Example C69_one_case : ∃ r p,
  out RB toy (generate_inclusion_proof 17 r K5) (fin RB toy (insert_one idc 17 (Some (r2 RB)) K5 v1) (s3 RB)) = ROk p ∧
  length (hlog RB toy (insert_one idc 17 (Some (r2 RB)) K5 v1) (s3 RB)) = length p.
Proof.
  pose proof (C69_one 2 RB _ toy _ idc idc (Nat.lt_0_succ 1) idc_ok (s3 RB) (lg3 RB) (hs2 RB) 17 (Some (r2 RB)) M2 K5 v1
    (the_root (out RB toy (insert_one idc 17 (Some (r2 RB)) K5 v1) (s3 RB)) K1)) as Hc.
  destruct Hc as (p & Hp & Hl);
    [left; exact rocks_scenario|apply no_collision_b_sound; vm_compute; reflexivity|left|vm_compute; reflexivity|].
  eexists _, p. split; [apply Hp; apply Nat.leb_le; reflexivity|exact Hl].
Qed.

(** C69: without a previous root, whatever the database contains. *)
Theorem C69_from_scratch :
  ∀ (n : nat) (B : backend n) (H : list bytes → arr n) (V : Type) (enc : V → res bytes), 0 < n →
  ∀ st D (ks : list (arr n)) vs r, out B H (insert enc D None ks vs) st = ROk r →
  length (hlog B H (insert enc D None ks vs) st) + 1 = 3 * length ks.
Proof. intros n B H V enc Hn. exact (scratch_hashes Hn B H enc). Qed.
Print Assumptions C69_from_scratch.
(** In a database with a wrong node, keys and hash function arbitrary. *)
Example C69_from_scratch_case : let st := <[K1 := Node 7 (VLeaf K2 K3)]> (b_init HB) in
  ∃ r, out HB (λ _, K1) (insert idc 0 None [K1; K4; K2] [v1; v1; v2]) st = ROk r ∧
    length (hlog HB (λ _, K1) (insert idc 0 None [K1; K4; K2] [v1; v1; v2]) st) + 1 = 9.
Proof.
  intros st. exists K1.
  assert (out HB (λ _, K1) (insert idc 0 None [K1; K4; K2] [v1; v1; v2]) st = ROk K1) as Ho by (vm_compute; reflexivity).
  split; [exact Ho|]. exact (C69_from_scratch 2 HB _ _ idc (Nat.lt_0_succ 1) _ _ _ _ _ Ho).
Qed.

(** C70: reads of a key that is in the tree. *)
Theorem C70_fetches :
  ∀ (n : nat) (B : backend n) (HB : BackendOk B) (H : list bytes → arr n)
    (V : Type) (enc : V → res bytes) (dec : bytes → res V), 0 < n → codec_ok enc dec →
  ∀ st lg r M k v, live B H enc dec st lg r M → no_collision H lg → M !! k = Some v →
  ∃ p, (∀ D, 8 * n + 1 ≤ D → out B H (generate_inclusion_proof D r k) st = ROk p) ∧
    ∀ D, fetches B H (get_one dec D r k) st = (D + 1) `min` length p ∧
      fetches B H (generate_inclusion_proof D r k) st = (D + 1) `min` length p.
Proof. intros n B HB H V enc dec Hn Hc. exact (read_fetches Hn B H enc dec Hc). Qed.
Print Assumptions C70_fetches.
Example C70_fetches_case : ∃ p,
  out HB toy (generate_inclusion_proof 17 (r4 HB) K5) (q4 HB) = ROk p ∧
  fetches HB toy (get_one idc 17 (r4 HB) K5) (q4 HB) = 18 `min` length p ∧ length p = 5.
Proof.
  destruct (C70_fetches 2 HB _ toy _ idc idc (Nat.lt_0_succ 1) idc_ok (q4 HB) (lg4 HB) (r4 HB) M4 K5 v1) as (p & Hp & Hf);
    [exists (hs4 HB); split; [right; apply rhist_whist, hash_scenario2|left]|exact hash_scenario2_nc|vm_compute; reflexivity|].
  assert (out HB toy (generate_inclusion_proof 17 (r4 HB) K5) (q4 HB) = ROk p) as H1 by (apply Hp; apply Nat.leb_le; reflexivity).
  exists p. split; [exact H1|]. split; [apply Hf|].
  enough (length p = length (the_root (out HB toy (generate_inclusion_proof 17 (r4 HB) K5) (q4 HB)) [])) as ->
    by (vm_compute; reflexivity). by rewrite H1.
Qed.

(** C70: an accepted proof costs one hash per entry. *)
Theorem C70_verify :
  ∀ (n : nat) (B : backend n) (H : list bytes → arr n) (V : Type) (enc : V → res bytes),
  ∀ root k v proof st, out B H (verify_inclusion_proof enc root k v proof) st = ROk tt →
  length (hlog B H (verify_inclusion_proof enc root k v proof) st) = length proof.
Proof. intros n B H V enc. exact (verify_hashes B H enc). Qed.
Print Assumptions C70_verify.
Example C70_verify_case : ∃ p, out HB toy (verify_inclusion_proof idc (r4 HB) K5 v1 p) (b_init HB) = ROk tt ∧
  length (hlog HB toy (verify_inclusion_proof idc (r4 HB) K5 v1 p) (b_init HB)) = 5 ∧ length p = 5.
Proof.
  exists (the_root (out HB toy (generate_inclusion_proof 17 (r4 HB) K5) (q4 HB)) []). vm_compute. split_and!; reflexivity.
Qed.
