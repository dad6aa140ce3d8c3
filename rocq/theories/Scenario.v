(** * A concrete history
    Keys of two bytes, a toy hash function and the identity codec: one history
    on each of the two backends, used to show that the hypotheses of the
    theorems can be met.  It consists of
    - [insert(None, [K1, K2], [v1, v2])], returning [r1],
    - [insert(Some(r1), [K3, K4], [v3, v4])], returning [r2],
    - [insert(Some(r2), [K1, K1], [v3, v4])], which fails (duplicate key).
    A second history starts with the same two insertions and continues with
    - [remove(r1)],
    - [insert(Some(r2), [K5], [v1])], returning [r4]. *)
From Coq Require Import Strings.Byte NArith.
From stdpp Require Import prelude countable gmap sorting strings.
From Verif Require Import Model Bits Spec Util Logic Claims.

Local Open Scope nat_scope.

(** ** Checking hypotheses by computation *)
Definition no_collision_b {n} (H : list bytes → arr n) (L : list (list bytes)) : bool :=
  forallb (λ x, forallb (λ y, negb (bool_decide (H x = H y)) || bool_decide (x = y)) L) L.
Lemma no_collision_b_sound {n} (H : list bytes → arr n) L : no_collision_b H L = true → no_collision H L.
Proof.
  intros Hb x y Hx%elem_of_list_In Hy%elem_of_list_In He. unfold no_collision_b in Hb.
  rewrite forallb_forall in Hb. specialize (Hb x Hx). rewrite forallb_forall in Hb. specialize (Hb y Hy).
  apply orb_true_iff in Hb as [Hb|Hb].
  - apply negb_true_iff, bool_decide_eq_false in Hb. done.
  - by apply bool_decide_eq_true in Hb.
Qed.
Definition hazard_b {n} (P ks : list (arr n)) : bool :=
  existsb (λ a, existsb (λ b, existsb (λ x, existsb (λ y,
    let s := klcp a b in let m := klcp x a in let q := klcp y a in
    (m <? 8 * ((s - 1) / 8)) && (8 * ((s - 1) / 8) <=? q) && (q <? s) && ((s - 1) mod 8 <? m mod 8)) ks) ks) P) P.
Lemma hazard_b_sound {n A} (M : gmap (arr n) A) ks : hazard_b (map_to_list M).*1 ks = false → benign M ks.
Proof.
  intros Hb (a & b & x & y & [va Ha] & [vb Hb'] & _ & Hx & Hy & Hc). cbv zeta in Hc.
  destruct Hc as (H1 & H2 & H3 & H4 & _). apply not_true_iff_false in Hb. apply Hb.
  assert (∀ k v, M !! k = Some v → In k (map_to_list M).*1) as Hin.
  { intros k v Hk. apply elem_of_list_In, elem_of_list_fmap. exists (k, v). split; [done|].
    by apply elem_of_map_to_list. }
  unfold hazard_b. apply existsb_exists. exists a. split; [by eapply Hin|].
  apply existsb_exists. exists b. split; [by eapply Hin|].
  apply existsb_exists. exists x. split; [by apply elem_of_list_In|].
  apply existsb_exists. exists y. split; [by apply elem_of_list_In|]. cbv zeta.
  rewrite !andb_true_iff. rewrite !Nat.ltb_lt, Nat.leb_le. auto.
Qed.
Lemma hazard_b_mild {n A} (M : gmap (arr n) A) ks : hazard_b (map_to_list M).*1 ks = false → mild M ks.
Proof. intros Hb. left. by apply hazard_b_sound. Qed.
Lemma hazard_b_mild_get {n A} (M : gmap (arr n) A) ks : hazard_b (map_to_list M).*1 ks = false → mild_get M ks.
Proof. intros Hb. left. by apply hazard_b_sound. Qed.
(** Executable form of [misled]; [Q] selects the keys that can be lost. *)
Definition misled_b {n} (P : list (arr n)) (Q : arr n → bool) (ks : list (arr n)) : bool :=
  existsb (λ a, existsb (λ b, existsb (λ x, existsb (λ y, existsb (λ d,
    let s := klcp a b in let m := klcp x a in let q := klcp y a in
    Q d && (m <? 8 * ((s - 1) / 8)) && (8 * ((s - 1) / 8) <=? q) && (q <? s) && ((s - 1) mod 8 <? m mod 8) &&
    (s <=? klcp d a) &&
    ((bool_decide (arr_cmp y d = Lt) && bit y s && negb (bit d s)) ||
     (bool_decide (arr_cmp d y = Lt) && negb (bit y s) && bit d s))) ks) ks) ks) P) P.
Lemma misled_b_sound {n A} (M : gmap (arr n) A) (Q : arr n → Prop) (Qb : arr n → bool) ks :
  (∀ k, Q k → Qb k = true) → misled_b (map_to_list M).*1 Qb ks = false → ¬ misled (has_key M) Q ks.
Proof.
  intros HQ Hb (a & b & x & y & d & [va Ha] & [vb Hb'] & _ & Hx & Hy & Hd & Hq & Hc). cbv zeta in Hc.
  destruct Hc as (H1 & H2 & H3 & H4 & H5 & H6). apply not_true_iff_false in Hb. apply Hb.
  assert (∀ k v, M !! k = Some v → In k (map_to_list M).*1) as Hin.
  { intros k v Hk. apply elem_of_list_In, elem_of_list_fmap. exists (k, v). split; [done|].
    by apply elem_of_map_to_list. }
  unfold misled_b. apply existsb_exists. exists a. split; [by eapply Hin|].
  apply existsb_exists. exists b. split; [by eapply Hin|].
  apply existsb_exists. exists x. split; [by apply elem_of_list_In|].
  apply existsb_exists. exists y. split; [by apply elem_of_list_In|].
  apply existsb_exists. exists d. split; [by apply elem_of_list_In|]. cbv zeta.
  rewrite !andb_true_iff, orb_true_iff, !andb_true_iff, !Nat.ltb_lt, !Nat.leb_le, !bool_decide_eq_true, !negb_true_iff.
  split_and!; auto. unfold klt in H6. naive_solver.
Qed.
Lemma misled_b_mild {n A} (M : gmap (arr n) A) ks :
  misled_b (map_to_list M).*1 (λ _, true) ks = false → mild M ks.
Proof. intros Hb. right. by eapply misled_b_sound. Qed.
Lemma misled_b_mild_get {n A} (M : gmap (arr n) A) ks :
  misled_b (map_to_list M).*1 (λ k, bool_decide (is_Some (M !! k))) ks = false → mild_get M ks.
Proof.
  intros Hb. right. eapply misled_b_sound; [|exact Hb]. intros k Hk. by apply bool_decide_eq_true.
Qed.

(** ** The instance *)
Definition toy_sum (cs : list bytes) : N :=
  fold_left (λ h b, ((h * 263 + Byte.to_N b + 7) * 31 mod 65521)%N) (concat cs) 5%N.
Definition toy (cs : list bytes) : arr 2 :=
  mkarr 2 [default x00 (Byte.of_N (toy_sum cs / 256)); default x00 (Byte.of_N (toy_sum cs mod 256))].
Definition idc (v : bytes) : res bytes := Ok v.
Lemma idc_ok : codec_ok idc idc.
Proof. split; [done|done|]. intros v e [= ->]. done. Qed.

Definition K (a b : byte) : arr 2 := mkarr 2 [a; b].
Definition K1 : arr 2 := K x00 x00.
Definition K2 : arr 2 := K x00 x40.
Definition K3 : arr 2 := K x00 x41.
Definition K4 : arr 2 := K x80 x01.
Definition K5 : arr 2 := K x00 x42.
Definition v1 : bytes := [x01]. Definition v2 : bytes := [x02; x02].
Definition v3 : bytes := []. Definition v4 : bytes := [x04].
Definition the_root {A} (o : outcome A) (d : A) : A := match o with ROk r => r | _ => d end.

Definition the_node (o : option (node 2)) : node 2 := match o with Some nd => nd | None => Node 0 (VData []) end.
Definition is_ok {A} (o : outcome A) : bool := match o with ROk _ => true | _ => false end.
Lemma is_ok_true {A} (o : outcome A) : is_ok o = true → ∃ a, o = ROk a.
Proof. destruct o; [eauto|discriminate..]. Qed.

Section Scenario.
  Context (B : backend 2).
  Definition i1 : prog 2 (arr 2) := insert idc 17 None [K2; K1] [v2; v1].
  Definition s1 : b_st B := fin B toy i1 (b_init B).
  Definition r1 : arr 2 := the_root (out B toy i1 (b_init B)) K1.
  Definition i2 : prog 2 (arr 2) := insert idc 17 (Some r1) [K3; K4] [v3; v4].
  Definition s2 : b_st B := fin B toy i2 s1.
  Definition r2 : arr 2 := the_root (out B toy i2 s1) K1.
  Definition c3 : call 2 bytes := CInsert 17 (Some r2) [K1; K1] [v3; v4].
  Definition s3 : b_st B := fin B toy (exec idc idc c3) s2.
  Definition M1 : gmap (arr 2) bytes := updated ∅ [K2; K1] [v2; v1].
  Definition M2 : gmap (arr 2) bytes := updated M1 [K3; K4] [v3; v4].
  Definition lg1 : list (list bytes) := [] ++ hlog B toy i1 (b_init B).
  Definition lg2 : list (list bytes) := lg1 ++ hlog B toy i2 s1.
  Definition lg3 : list (list bytes) := lg2 ++ hlog B toy (exec idc idc c3) s2.
  Definition hs1 : list (arr 2 * gmap (arr 2) bytes) := [(r1, M1)].
  Definition hs2 : list (arr 2 * gmap (arr 2) bytes) := (r2, M2) :: hs1.

  Lemma scenario_hist : out B toy i1 (b_init B) = ROk r1 → out B toy i2 s1 = ROk r2 →
    hist B toy idc idc s3 lg3 hs2.
  Proof.
    intros H1 H2. apply hist_call. unfold s2, lg2, hs2, M2. eapply hist_insert with (prev := Some r1).
    - unfold s1, lg1, hs1, M1. eapply hist_insert with (prev := None); [apply hist_init|done|left; apply benign_empty|done].
    - left.
    - left. apply hazard_b_sound. vm_compute. reflexivity.
    - exact H2.
  Qed.
End Scenario.

Lemma hash_scenario : hist (hash_db 2) toy idc idc (s3 (hash_db 2)) (lg3 (hash_db 2)) (hs2 (hash_db 2)).
Proof. apply scenario_hist; vm_compute; reflexivity. Qed.
Lemma rocks_scenario : hist (rocks_db 2) toy idc idc (s3 (rocks_db 2)) (lg3 (rocks_db 2)) (hs2 (rocks_db 2)).
Proof. apply scenario_hist; vm_compute; reflexivity. Qed.
Lemma hash_scenario_nc : no_collision toy (lg3 (hash_db 2)).
Proof. apply no_collision_b_sound. vm_compute. reflexivity. Qed.
Lemma rocks_scenario_nc : no_collision toy (lg3 (rocks_db 2)).
Proof. apply no_collision_b_sound. vm_compute. reflexivity. Qed.
Lemma scenario_c3_fails : ∃ er, out (hash_db 2) toy (exec idc idc (c3 (hash_db 2))) (s2 (hash_db 2)) = RErr er.
Proof. eexists. vm_compute. reflexivity. Qed.

(** ** The history with a removal *)
Definition fresh_b {n} (hs : list (arr n * gmap (arr n) bytes)) (ks : list (arr n)) (vs : list bytes) : bool :=
  forallb (λ h, forallb (λ p, negb (bool_decide (h.2 !! p.1 = Some p.2))) (zip ks vs)) hs.
Lemma fresh_b_sound {n} (hs : list (arr n * gmap (arr n) bytes)) ks vs : fresh_b hs ks vs = true → fresh_pairs hs ks vs.
Proof.
  intros Hb r M k v Hin Hkv He. unfold fresh_b in Hb. rewrite forallb_forall in Hb.
  apply elem_of_list_In, Hb in Hin. simpl in Hin. rewrite forallb_forall in Hin.
  apply elem_of_list_In, Hin in Hkv. simpl in Hkv. by rewrite bool_decide_eq_true_2 in Hkv.
Qed.
Section Scenario2.
  Context (B : backend 2).
  Definition q2 : b_st B := fin B toy (remove_prog B (s2 B) (r1 B)) (s2 B).
  Definition i4 : prog 2 (arr 2) := insert idc 17 (Some (r2 B)) [K5] [v1].
  Definition q4 : b_st B := fin B toy i4 q2.
  Definition r4 : arr 2 := the_root (out B toy i4 q2) K1.
  Definition M4 : gmap (arr 2) bytes := updated M2 [K5] [v1].
  Definition lg4 : list (list bytes) := lg2 B ++ hlog B toy i4 q2.
  Definition hs4 : list (arr 2 * gmap (arr 2) bytes) := [(r4, M4); (r2 B, M2)].

  Lemma scenario2_prefix : out B toy i1 (b_init B) = ROk (r1 B) → out B toy (i2 B) (s1 B) = ROk (r2 B) →
    rhist B toy idc idc (s2 B) (lg2 B) (hs2 B).
  Proof.
    intros H1 H2. unfold s2, lg2, hs2, M2. eapply rhist_insert with (prev := Some (r1 B)).
    - unfold s1, lg1, hs1, M1. eapply rhist_insert with (prev := None);
        [apply rhist_init|done|apply benign_empty|by intros r M k v ?%elem_of_nil|done].
    - left.
    - apply hazard_b_sound. vm_compute. reflexivity.
    - intros r M k v Hin. apply elem_of_list_singleton in Hin as [= -> ->].
      apply (fresh_b_sound [(K1, M1)] [K3; K4] [v3; v4]) with (r := K1); [vm_compute; reflexivity|left].
    - exact H2.
  Qed.
  Lemma scenario2_mid : out B toy i1 (b_init B) = ROk (r1 B) → out B toy (i2 B) (s1 B) = ROk (r2 B) →
    rhist B toy idc idc q2 (lg2 B) [(r2 B, M2)].
  Proof.
    intros H1 H2. unfold q2. eapply rhist_remove with (M := M1) (hs := hs2 B); [|by apply Permutation_swap].
    by apply scenario2_prefix.
  Qed.
  Lemma scenario2_fresh : fresh_pairs [(r2 B, M2)] [K5] [v1].
  Proof.
    intros r M k v Hin. apply elem_of_list_singleton in Hin as [= -> ->].
    apply (fresh_b_sound [(K1, M2)] [K5] [v1]) with (r := K1); [vm_compute; reflexivity|left].
  Qed.
  Lemma scenario2_sub r' M' : (r', M') ∈ [(r2 B, M2)] → ¬ M4 ⊆ M'.
  Proof.
    intros Hin Hsub. apply elem_of_list_singleton in Hin as [= -> ->].
    assert (M4 !! K5 = Some v1) as Hk by (vm_compute; reflexivity).
    apply (lookup_weaken _ _ _ _ Hk) in Hsub. vm_compute in Hsub. discriminate Hsub.
  Qed.
  Lemma scenario2_hist : out B toy i1 (b_init B) = ROk (r1 B) → out B toy (i2 B) (s1 B) = ROk (r2 B) →
    out B toy i4 q2 = ROk r4 → rhist B toy idc idc q4 lg4 hs4.
  Proof.
    intros H1 H2 H4. unfold q4, lg4, hs4, M4.
    eapply rhist_insert with (prev := Some (r2 B)) (hs := [(r2 B, M2)]).
    - by apply scenario2_mid.
    - left.
    - apply benign_single.
    - apply scenario2_fresh.
    - exact H4.
  Qed.
End Scenario2.
Lemma hash_prefix : rhist (hash_db 2) toy idc idc (s2 (hash_db 2)) (lg2 (hash_db 2)) (hs2 (hash_db 2)).
Proof. apply scenario2_prefix; vm_compute; reflexivity. Qed.
Lemma hash_mid : rhist (hash_db 2) toy idc idc (q2 (hash_db 2)) (lg2 (hash_db 2)) [(r2 (hash_db 2), M2)].
Proof. apply scenario2_mid; vm_compute; reflexivity. Qed.
Lemma hash_first : rhist (hash_db 2) toy idc idc (s1 (hash_db 2)) (lg1 (hash_db 2)) (hs1 (hash_db 2)).
Proof.
  unfold s1, lg1, hs1, M1. eapply rhist_insert with (prev := None);
    [apply rhist_init|done|apply benign_empty|by intros r M k v ?%elem_of_nil|vm_compute; reflexivity].
Qed.
Lemma hash_scenario2 : rhist (hash_db 2) toy idc idc (q4 (hash_db 2)) (lg4 (hash_db 2)) (hs4 (hash_db 2)).
Proof. apply scenario2_hist; vm_compute; reflexivity. Qed.
Lemma rocks_scenario2 : rhist (rocks_db 2) toy idc idc (q4 (rocks_db 2)) (lg4 (rocks_db 2)) (hs4 (rocks_db 2)).
Proof. apply scenario2_hist; vm_compute; reflexivity. Qed.
Lemma hash_scenario2_nc : no_collision toy (lg4 (hash_db 2)).
Proof. apply no_collision_b_sound. vm_compute. reflexivity. Qed.
Lemma rocks_scenario2_nc : no_collision toy (lg4 (rocks_db 2)).
Proof. apply no_collision_b_sound. vm_compute. reflexivity. Qed.
