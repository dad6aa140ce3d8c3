(** * A history with failures
    Used in the [Example]s of PropsWeak.v and PropsUsage.v; continues the one of
    Scenario.v:
    - [insert(None, [K1, K2], [v1, v2])], returning [r1],
    - [insert(Some(r1), [K3, K4], [v3, v4])], returning [r2],
    - [insert(Some(r2), [K1, K1], [v3, v4])], which fails (duplicate key) and
      leaves its leaves behind,
    - [insert(Some(r2), [K5], [v1])], cut short after ten steps,
    - [remove(r1)], cut short after three steps,
    - [insert(Some(r2), [K5], [v1])] again, returning [r6]. *)
From Coq Require Import Strings.Byte NArith.
From stdpp Require Import prelude countable gmap sorting strings.
From Verif Require Import Model Bits Spec Logic Safe Claims Live Regrow Weak Scenario.

Local Open Scope nat_scope.

Notation HB := (hash_db 2). Notation RB := (rocks_db 2).
Section Scenario3.
  Context (B : backend 2).
  Definition w4 : b_st B := default (b_init B) (states B toy (i4 B) (s3 B) !! 10).
  Definition w5 : b_st B := default (b_init B) (states B toy (remove_prog B w4 (r1 B)) w4 !! 3).
  Definition w6 : b_st B := fin B toy (i4 B) w5.
  Definition r6 : arr 2 := the_root (out B toy (i4 B) w5) K1.
  Definition wlg4 : list (list bytes) := lg3 B ++ hlog B toy (i4 B) (s3 B).
  Definition wlg6 : list (list bytes) := wlg4 ++ hlog B toy (i4 B) w5.
  Definition whs5 : list (arr 2 * gmap (arr 2) bytes) := [(r2 B, M2)].
  Definition whs6 : list (arr 2 * gmap (arr 2) bytes) := (r6, M4) :: whs5.
  Lemma fresh_hs2 : fresh_pairs (hs2 B) [K5] [v1].
  Proof.
    intros r M k v Hin. unfold hs2, hs1 in Hin.
    apply elem_of_cons in Hin as [[= -> ->]|[[= -> ->]|Hin%elem_of_nil]%elem_of_cons]; [| |done].
    - apply (fresh_b_sound [(K1, M2)] [K5] [v1]) with (r := K1); [vm_compute; reflexivity|left].
    - apply (fresh_b_sound [(K1, M1)] [K5] [v1]) with (r := K1); [vm_compute; reflexivity|left].
  Qed.
  Lemma scenario3_failed : out B toy i1 (b_init B) = ROk (r1 B) → out B toy (i2 B) (s1 B) = ROk (r2 B) →
    (∃ er, out B toy (exec idc idc (c3 B)) (s2 B) = RErr er) → whist B toy idc idc (s3 B) (lg3 B) (hs2 B).
  Proof.
    intros H1 H2 [er H3]. unfold lg3. eapply whist_error; [|exact H3|apply run_in_states].
    apply rhist_whist. by apply scenario2_prefix.
  Qed.
  Lemma scenario3_cut : whist B toy idc idc (s3 B) (lg3 B) (hs2 B) →
    w4 ∈ states B toy (i4 B) (s3 B) → w5 ∈ states B toy (remove_prog B w4 (r1 B)) w4 →
    whist B toy idc idc w5 wlg4 whs5.
  Proof.
    intros H3 H4 H5. eapply whist_remove with (r := r1 B) (M := M1) (hs := hs2 B);
      [|apply Permutation_swap|exact H5].
    eapply whist_cut with (prev := Some (r2 B)) (M := M2); [exact H3|left|apply benign_single|apply fresh_pairs_branches, fresh_hs2|exact H4].
  Qed.
  Lemma scenario3_done : whist B toy idc idc w5 wlg4 whs5 → out B toy (i4 B) w5 = ROk r6 →
    whist B toy idc idc w6 wlg6 whs6.
  Proof.
    intros H5 H6. eapply whist_insert with (prev := Some (r2 B)) (M := M2);
      [exact H5|left|apply benign_single|apply fresh_pairs_branches, scenario2_fresh|exact H6].
  Qed.
End Scenario3.
Lemma default_lookup {A} (l : list A) i d : i < length l → default d (l !! i) ∈ l.
Proof. intros [x Hx]%lookup_lt_is_Some. rewrite Hx. by eapply elem_of_list_lookup_2. Qed.
Ltac in_states := apply default_lookup; apply Nat.ltb_lt; vm_compute; reflexivity.
Lemma hash_failed : whist HB toy idc idc (s3 HB) (lg3 HB) (hs2 HB).
Proof. apply scenario3_failed; [vm_compute; reflexivity..|exact scenario_c3_fails]. Qed.
Lemma rocks_failed : whist RB toy idc idc (s3 RB) (lg3 RB) (hs2 RB).
Proof. apply scenario3_failed; [vm_compute; reflexivity..|eexists; vm_compute; reflexivity]. Qed.
Lemma hash_cut : whist HB toy idc idc (w5 HB) (wlg4 HB) (whs5 HB).
Proof. apply scenario3_cut; [exact hash_failed|in_states..]. Qed.
Lemma rocks_cut : whist RB toy idc idc (w5 RB) (wlg4 RB) (whs5 RB).
Proof. apply scenario3_cut; [exact rocks_failed|in_states..]. Qed.
Lemma hash_scenario3 : whist HB toy idc idc (w6 HB) (wlg6 HB) (whs6 HB).
Proof. apply scenario3_done; [exact hash_cut|vm_compute; reflexivity]. Qed.
Lemma rocks_scenario3 : whist RB toy idc idc (w6 RB) (wlg6 RB) (whs6 RB).
Proof. apply scenario3_done; [exact rocks_cut|vm_compute; reflexivity]. Qed.

(** At most one of the keys of a list is absent, checked by computation. *)
Definition one_new_b (M : gmap (arr 2) bytes) (ks : list (arr 2)) : bool :=
  forallb (λ x, forallb (λ y, bool_decide (is_Some (M !! x)) || bool_decide (is_Some (M !! y)) || bool_decide (x = y)) ks) ks.
Lemma one_new_b_sound M ks : one_new_b M ks = true →
  ∀ x y, x ∈ ks → y ∈ ks → M !! x = None → M !! y = None → x = y.
Proof.
  unfold one_new_b. intros Hb x y Hx%elem_of_list_In Hy%elem_of_list_In H1 H2.
  rewrite forallb_forall in Hb. specialize (Hb x Hx). rewrite forallb_forall in Hb. specialize (Hb y Hy).
  rewrite H1, H2 in Hb. simpl in Hb. by apply bool_decide_eq_true in Hb.
Qed.
