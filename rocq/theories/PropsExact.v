(** * Exactly when removals are safe and complete
    Statements only; see PropsHist.v for the conventions.  [whist], [shist],
    [fresh_branches] and [fresh_pairs] are defined in Spec.v; the histories of
    the [Example]s are those of Scenario4.v. *)
From Coq Require Import Strings.Byte NArith.
From stdpp Require Import prelude countable gmap sorting strings.
From Verif Require Import Model Bits Spec Logic Safe Claims Live Regrow Weak Exact Scenario Scenario4.

Local Open Scope nat_scope.

Notation HB := (hash_db 2). Notation RB := (rocks_db 2).
Ltac nc := apply no_collision_b_sound; vm_compute; reflexivity.

(** C20: after an insertion and the removal of the root it returned, all other roots read as before if and only
    if the insertion made no branch of theirs again. *)
Theorem C20_exact :
  ∀ (n : nat) (B : backend n) (HB : BackendOk B) (H : list bytes → arr n)
    (V : Type) (enc : V → res bytes) (dec : bytes → res V), 0 < n → codec_ok enc dec →
  ∀ st lg hs D prev M ks vs r,
  whist B H enc dec st lg hs → no_collision H (lg ++ hlog B H (insert enc D prev ks vs) st) →
  prev_holds hs prev M → benign M ks → out B H (insert enc D prev ks vs) st = ROk r →
  let st1 := fin B H (insert enc D prev ks vs) st in
  let st2 := fin B H (remove_prog B st1 r) st1 in
  (∀ r' M', (r', M') ∈ hs → holds B H dec st2 r' M') ↔ fresh_branches hs M ks vs.
Proof. intros n B HB H V enc dec Hn Hc. exact (insert_remove_exact Hn B H enc dec Hc). Qed.
Print Assumptions C20_exact.
(** A repeated pair alone does no harm; a repeated branch does. *)
Example C20_exact_case : (∀ r' M', (r', M') ∈ hs1 RB → holds RB toy idc (xs3 RB) r' M') ∧
  ¬ (∀ r' M', (r', M') ∈ hs1 RB → holds RB toy idc (ys3 RB) r' M').
Proof.
  split.
  - refine (proj2 (C20_exact 2 RB _ toy _ idc idc ltac:(lia) idc_ok (s1 RB) (lg1 RB) (hs1 RB) 17 None ∅ [K1; K3] [v1; v3] (xr2 RB) _ _ _ _ _) (fresh_x2 RB));
      [apply first_whist; by right|nc|done|apply benign_empty|vm_compute; reflexivity].
  - intros Hall.
    refine (proj1 (C20_exact 2 RB _ toy _ idc idc ltac:(lia) idc_ok (s1 RB) (lg1 RB) (hs1 RB) 17 None ∅ [K1; K2; K4] [v1; v2; v4] (yr2 RB) _ _ _ _ _) Hall
      (r1 RB) M1 _ regrows_y2);
      [apply first_whist; by right|nc|done|apply benign_empty|vm_compute; reflexivity|left].
Qed.

(** C20: the damage: some pair of the other root can no longer be read. *)
Theorem C20_damage :
  ∀ (n : nat) (B : backend n) (HB : BackendOk B) (H : list bytes → arr n)
    (V : Type) (enc : V → res bytes) (dec : bytes → res V), 0 < n → codec_ok enc dec →
  ∀ st lg hs D prev M ks vs r r' M',
  whist B H enc dec st lg hs → no_collision H (lg ++ hlog B H (insert enc D prev ks vs) st) →
  prev_holds hs prev M → benign M ks → out B H (insert enc D prev ks vs) st = ROk r →
  (r', M') ∈ hs → regrows M' (updated M ks vs) ks vs →
  let st1 := fin B H (insert enc D prev ks vs) st in
  let st2 := fin B H (remove_prog B st1 r) st1 in
  ∃ k v, M' !! k = Some v ∧ ∀ D', out B H (get_one dec D' r' k) st2 ≠ ROk (Some v).
Proof. intros n B HB H V enc dec Hn Hc. exact (insert_remove_damage Hn B H enc dec Hc). Qed.
Print Assumptions C20_damage.
Example C20_damage_case : ∃ k v, M1 !! k = Some v ∧
  ∀ D', out HB toy (get_one idc D' (r1 HB) k) (ys3 HB) ≠ ROk (Some v).
Proof.
  refine (C20_damage 2 HB _ toy _ idc idc ltac:(lia) idc_ok (s1 HB) (lg1 HB) (hs1 HB) 17 None ∅ [K1; K2; K4] [v1; v2; v4] (yr2 HB) _ _ _ _ _ _ _ _ regrows_y2);
    [apply first_whist; by left|nc|done|apply benign_empty|vm_compute; reflexivity|left].
Qed.

(** C21: once every root is removed, the database is empty if and only if no batch held a pair that a root then
    alive already held. *)
Theorem C21_exact :
  ∀ (n : nat) (B : backend n) (HB : BackendOk B) (H : list bytes → arr n)
    (V : Type) (enc : V → res bytes) (dec : bytes → res V), 0 < n → codec_ok enc dec →
  ∀ st lg F,
  shist B H enc dec st lg [] F → no_collision H lg → b_vis B st = ∅ ↔ F.
Proof. intros n B HB H V enc dec Hn Hc. exact (all_removed_exact Hn B H enc dec Hc). Qed.
Print Assumptions C21_exact.
Example C21_exact_case : b_vis RB (zs4 RB) = ∅ ∧ b_vis RB (xs4 RB) ≠ ∅.
Proof.
  split.
  - refine (proj2 (C21_exact 2 RB _ toy _ idc idc ltac:(lia) idc_ok (zs4 RB) (lg2 RB) (zF RB) _ _) (clean_fresh RB)); [|nc].
    apply clean_shist; vm_compute; reflexivity.
  - intros He. apply (repeat_not_fresh RB). refine (proj1 (C21_exact 2 RB _ toy _ idc idc ltac:(lia) idc_ok (xs4 RB) (xlg RB) (xF RB) _ _) He); [|nc].
    apply repeat_shist; vm_compute; reflexivity.
Qed.
