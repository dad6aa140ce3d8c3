(** * Histories that repeat pairs
    Used in the [Example]s of PropsExact.v.  After [insert(None, [K1, K2], [v1, v2])],
    returning [r1] (Scenario.v):
    - [insert(None, [K1, K3], [v1, v3])], returning [xr2], repeats a pair of [r1]
      but none of its branches; then [remove(xr2)] and [remove(r1)],
    - or [insert(None, [K1, K2, K4], [v1, v2, v4])], returning [yr2], which makes
      the branch of [r1] again; then [remove(yr2)],
    - or the insertion of fresh pairs of Scenario.v, returning [r2]; then
      [remove(r1)] and [remove(r2)]. *)
From Coq Require Import Strings.Byte NArith.
From stdpp Require Import prelude countable gmap sorting strings.
From Verif Require Import Model Bits Spec Logic Safe Claims Live Regrow Weak Scenario.

Local Open Scope nat_scope.

(** [regrows], checked by computation. *)
Definition regrow_b {n} (M' N : gmap (arr n) bytes) (ks : list (arr n)) (vs : list bytes) : bool :=
  existsb (λ p, existsb (λ k', negb (bool_decide (k' = p.1)) &&
    forallb (λ x, (klcp x p.1 <? klcp k' p.1) || bool_decide (M' !! x = N !! x))
      ((map_to_list M').*1 ++ (map_to_list N).*1)) (map_to_list N).*1) (zip ks vs).
Lemma in_keys {n A} (M : gmap (arr n) A) k : is_Some (M !! k) ↔ In k (map_to_list M).*1.
Proof.
  rewrite <- elem_of_list_In, elem_of_list_fmap. split.
  - intros [v Hv]. exists (k, v). split; [done|]. by apply elem_of_map_to_list.
  - intros ([k0 v] & -> & Hin). apply elem_of_map_to_list in Hin. eauto.
Qed.
Lemma regrow_b_spec {n} (M' N : gmap (arr n) bytes) ks vs : regrow_b M' N ks vs = true ↔ regrows M' N ks vs.
Proof.
  unfold regrow_b, regrows. rewrite existsb_exists. setoid_rewrite existsb_exists.
  setoid_rewrite andb_true_iff. setoid_rewrite negb_true_iff. setoid_rewrite bool_decide_eq_false.
  setoid_rewrite forallb_forall. split.
  - intros ([k v] & Hkv & k' & Hk' & Hne & Hag). exists k, v, k'. split_and!; [by apply elem_of_list_In|done|by apply in_keys|].
    intros x Hx. destruct (M' !! x) as [w|] eqn:H1, (N !! x) as [u|] eqn:H2; try done;
      (specialize (Hag x); apply orb_true_iff in Hag as [Hag|Hag];
       [apply Nat.ltb_lt in Hag; simpl in Hag; lia|apply bool_decide_eq_true in Hag; congruence|]);
      rewrite in_app_iff, <- !in_keys, H1, H2; eauto.
  - intros (k & v & k' & Hkv & Hne & Hk' & Hag). exists (k, v). split; [by apply elem_of_list_In|].
    exists k'. split_and!; [by apply in_keys|done|]. intros x _. apply orb_true_iff. cbn [fst].
    destruct (Nat.ltb_spec (klcp x k) (klcp k' k)) as [|Hge]; [by left|right].
    apply bool_decide_eq_true. by apply Hag.
Qed.
Definition fresh_branches_b {n} (hs : list (arr n * gmap (arr n) bytes)) M ks vs : bool :=
  forallb (λ h, negb (regrow_b h.2 (updated M ks vs) ks vs)) hs.
Lemma fresh_branches_b_sound {n} (hs : list (arr n * gmap (arr n) bytes)) M ks vs :
  fresh_branches_b hs M ks vs = true → fresh_branches hs M ks vs.
Proof.
  unfold fresh_branches_b. rewrite forallb_forall. intros Hb r M' Hin Hr.
  apply elem_of_list_In, Hb in Hin. cbn [snd] in Hin. apply regrow_b_spec in Hr. by rewrite Hr in Hin.
Qed.

Notation HB := (hash_db 2). Notation RB := (rocks_db 2).
Section Scenario4.
  Context (B : backend 2).
  Definition x2 : prog 2 (arr 2) := insert idc 17 None [K1; K3] [v1; v3].
  Definition xs2 : b_st B := fin B toy x2 (s1 B).
  Definition xr2 : arr 2 := the_root (out B toy x2 (s1 B)) K1.
  Definition X2 : gmap (arr 2) bytes := updated ∅ [K1; K3] [v1; v3].
  Definition xs3 : b_st B := fin B toy (remove_prog B xs2 xr2) xs2.
  Definition xs4 : b_st B := fin B toy (remove_prog B xs3 (r1 B)) xs3.
  Definition xlg : list (list bytes) := lg1 B ++ hlog B toy x2 (s1 B).
  Definition xF : Prop := (True ∧ fresh_pairs (n := 2) [] [K2; K1] [v2; v1]) ∧ fresh_pairs (hs1 B) [K1; K3] [v1; v3].
  Lemma first_shist : out B toy i1 (b_init B) = ROk (r1 B) →
    shist B toy idc idc (s1 B) (lg1 B) (hs1 B) (True ∧ fresh_pairs (n := 2) [] [K2; K1] [v2; v1]).
  Proof.
    intros H1. unfold s1, lg1, hs1, M1. eapply shist_insert with (prev := None);
      [apply shist_init|done|apply benign_empty|by intros r M ?%elem_of_nil|done].
  Qed.
  Lemma fresh_x2 : fresh_branches (hs1 B) ∅ [K1; K3] [v1; v3].
  Proof.
    intros r M Hin. apply elem_of_list_singleton in Hin as [= -> ->].
    apply (fresh_branches_b_sound [(K1, M1)] ∅ [K1; K3] [v1; v3]) with (r := K1); [vm_compute; reflexivity|left].
  Qed.
  Lemma repeat_shist : out B toy i1 (b_init B) = ROk (r1 B) → out B toy x2 (s1 B) = ROk xr2 →
    shist B toy idc idc xs4 xlg [] xF.
  Proof.
    intros H1 H2. eapply shist_remove with (M := M1) (hs := hs1 B); [|done].
    eapply shist_remove with (M := X2) (hs := (xr2, X2) :: hs1 B); [|done].
    unfold xs2, xlg, xF. eapply shist_insert with (prev := None); [by apply first_shist|done|apply benign_empty|apply fresh_x2|done].
  Qed.
  Lemma repeat_not_fresh : ¬ xF.
  Proof.
    intros [_ Hf]. apply (Hf (r1 B) M1 K1 v1); [left|left|]. vm_compute. reflexivity.
  Qed.

  Definition y2 : prog 2 (arr 2) := insert idc 17 None [K1; K2; K4] [v1; v2; v4].
  Definition ys2 : b_st B := fin B toy y2 (s1 B).
  Definition yr2 : arr 2 := the_root (out B toy y2 (s1 B)) K1.
  Definition ylg : list (list bytes) := lg1 B ++ hlog B toy y2 (s1 B).
  Definition ys3 : b_st B := fin B toy (remove_prog B ys2 yr2) ys2.
  Lemma regrows_y2 : regrows M1 (updated ∅ [K1; K2; K4] [v1; v2; v4]) [K1; K2; K4] [v1; v2; v4].
  Proof. apply regrow_b_spec. vm_compute. reflexivity. Qed.

  Definition zs3 : b_st B := fin B toy (remove_prog B (s2 B) (r1 B)) (s2 B).
  Definition zs4 : b_st B := fin B toy (remove_prog B zs3 (r2 B)) zs3.
  Definition zF : Prop := (True ∧ fresh_pairs (n := 2) [] [K2; K1] [v2; v1]) ∧ fresh_pairs (hs1 B) [K3; K4] [v3; v4].
  Lemma fresh_z2 : fresh_pairs (hs1 B) [K3; K4] [v3; v4].
  Proof.
    intros r M k v Hin. apply elem_of_list_singleton in Hin as [= -> ->].
    apply (fresh_b_sound [(K1, M1)] [K3; K4] [v3; v4]) with (r := K1); [vm_compute; reflexivity|left].
  Qed.
  Lemma clean_shist : out B toy i1 (b_init B) = ROk (r1 B) → out B toy (i2 B) (s1 B) = ROk (r2 B) →
    shist B toy idc idc zs4 (lg2 B) [] zF.
  Proof.
    intros H1 H2. eapply shist_remove with (M := M2) (hs := [(r2 B, M2)]); [|done].
    eapply shist_remove with (M := M1) (hs := hs2 B); [|by apply Permutation_swap].
    unfold s2, lg2, hs2, M2, zF. eapply shist_insert with (prev := Some (r1 B)); [by apply first_shist|left| |
      apply fresh_pairs_branches, fresh_z2|done].
    apply hazard_b_sound. vm_compute. reflexivity.
  Qed.
  Lemma clean_fresh : zF.
  Proof. split; [split; [done|by intros r M k v ?%elem_of_nil]|apply fresh_z2]. Qed.
End Scenario4.
Lemma first_whist (B : backend 2) : B = HB ∨ B = RB → whist B toy idc idc (s1 B) (lg1 B) (hs1 B).
Proof.
  intros Hb. unfold s1, lg1, hs1, M1. eapply whist_insert with (prev := None);
    [apply whist_init|done|apply benign_empty|by intros r M ?%elem_of_nil|].
  by destruct Hb as [->| ->]; vm_compute.
Qed.
