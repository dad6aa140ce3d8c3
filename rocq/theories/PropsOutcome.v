(** * Which calls fail, and with which error
    Statements only; see PropsHist.v for the conventions. *)
From Coq Require Import Strings.Byte NArith.
From stdpp Require Import prelude countable gmap sorting strings.
From Verif Require Import Model Bits Spec Logic Safe Claims Live Regrow Weak Cost Outcome Scenario Scenario3 Scenario4.

Local Open Scope nat_scope.

Notation HB := (hash_db 2). Notation RB := (rocks_db 2).

(** C71: [get] on a live root fails only because of the limit; without hazard the limit is enough for all keys if it is for each. *)
Theorem C71_get :
  ∀ (n : nat) (B : backend n) (HB : BackendOk B) (H : list bytes → arr n)
    (V : Type) (enc : V → res bytes) (dec : bytes → res V), 0 < n → codec_ok enc dec →
  ∀ st lg r M D ks, live B H enc dec st lg r M → no_collision H lg →
  ((∃ lm, out B H (get dec D r ks) st = ROk lm) ∨
   out B H (get dec D r ks) st = RErr "Depth of merkle tree exceeded") ∧
  (benign M ks → (∃ lm, out B H (get dec D r ks) st = ROk lm) ↔
     ∀ k, k ∈ ks → ∃ lm, out B H (get dec D r [k]) st = ROk lm).
Proof. intros n B HB H V enc dec Hn Hc. exact (get_outcome Hn B H enc dec Hc). Qed.
Print Assumptions C71_get.
Example C71_get_case : (∃ lm, out RB toy (get idc 4 (r4 RB) [K5; K1; K3]) (q4 RB) = ROk lm) ∧
  ¬ ∃ lm, out RB toy (get idc 1 (r4 RB) [K5; K1; K3]) (q4 RB) = ROk lm.
Proof.
  assert (live RB toy idc idc (q4 RB) (lg4 RB) (r4 RB) M4) as Hl
    by (exists (hs4 RB); split; [right; apply rhist_whist, rocks_scenario2|left]).
  assert (benign M4 [K5; K1; K3]) as Hb by (apply hazard_b_sound; vm_compute; reflexivity).
  split.
  - apply (C71_get 2 RB _ toy _ idc idc (Nat.lt_0_succ 1) idc_ok _ _ _ _ 4 _ Hl rocks_scenario2_nc); [exact Hb|]. intros k Hk.
    apply is_ok_true. repeat (apply elem_of_cons in Hk as [->|Hk]; [vm_compute; reflexivity|]). by apply elem_of_nil in Hk.
  - intros Hok. pose proof (proj1 (proj2 (C71_get 2 RB _ toy _ idc idc (Nat.lt_0_succ 1) idc_ok _ _ _ _ 1 _ Hl rocks_scenario2_nc) Hb) Hok) as Hk. clear Hok.
    destruct (Hk K5 ltac:(left)) as [lm Hlm].
    assert (is_ok (out RB toy (get idc 1 (r4 RB) [K5]) (q4 RB)) = false) as Hf by (vm_compute; reflexivity).
    rewrite Hlm in Hf. discriminate Hf.
Qed.

(** C71: the outcome of any insertion. *)
Theorem C71_insert :
  ∀ (n : nat) (B : backend n) (HB : BackendOk B) (H : list bytes → arr n)
    (V : Type) (enc : V → res bytes) (dec : bytes → res V), 0 < n → codec_ok enc dec →
  ∀ st lg hs D prev M ks vs,
  hist B H enc dec st lg hs ∨ whist B H enc dec st lg hs →
  no_collision H (lg ++ hlog B H (insert enc D prev ks vs) st) → prev_holds hs prev M →
  length ks = length vs → ks ≠ [] →
  let o := out B H (insert enc D prev ks vs) st in
  let deep := ∃ r, prev = Some r ∧ out B H (get dec D r ks) st = RErr "Depth of merkle tree exceeded" in
  let duplicates := RErr "Attempted to insert item with duplicate keys" in
  (NoDup ks → (∃ v, v ∈ vs ∧ ∀ e, enc v ≠ Ok e) → ∃ v er, v ∈ vs ∧ enc v = Err er ∧ o = RErr er) ∧
  ((∀ v, v ∈ vs → ∃ e, enc v = Ok e) →
     (deep → o = RErr "Depth of merkle tree exceeded") ∧
     (¬ deep → ¬ NoDup ks → o = duplicates) ∧
     (¬ deep → NoDup ks → (∃ r', o = ROk r') ∨ (¬ mild M ks ∧ o = duplicates))).
Proof. intros n B HB H V enc dec Hn Hc. exact (insert_outcome Hn B H enc dec Hc). Qed.
Print Assumptions C71_insert.
Example C71_insert_depth : out HB toy (insert idc 1 (Some (r2 HB)) [K3; K1] [v1; v1]) (s3 HB) =
  RErr "Depth of merkle tree exceeded".
Proof.
  eapply (C71_insert 2 HB _ toy _ idc idc (Nat.lt_0_succ 1) idc_ok (s3 HB) (lg3 HB) (hs2 HB) 1 (Some (r2 HB)) M2 [K3; K1] [v1; v1]);
    [left; exact hash_scenario|apply no_collision_b_sound; vm_compute; reflexivity|left|reflexivity|discriminate| |].
  - intros v _. by eexists.
  - exists (r2 HB). split; [reflexivity|vm_compute; reflexivity].
Qed.
Example C71_insert_duplicates : out HB toy (insert idc 17 (Some (r2 HB)) [K3; K1; K3] [v1; v1; v1]) (s3 HB) =
  RErr "Attempted to insert item with duplicate keys".
Proof.
  eapply (C71_insert 2 HB _ toy _ idc idc (Nat.lt_0_succ 1) idc_ok (s3 HB) (lg3 HB) (hs2 HB) 17 (Some (r2 HB)) M2 [K3; K1; K3] [v1; v1; v1]);
    [left; exact hash_scenario|apply no_collision_b_sound; vm_compute; reflexivity|left|reflexivity|discriminate| | |].
  - intros v _. by eexists.
  - intros (r & [= <-] & Hr).
    assert (is_ok (out HB toy (get idc 17 (r2 HB) [K3; K1; K3]) (s3 HB)) = true) as Hf by (vm_compute; reflexivity).
    rewrite Hr in Hf. discriminate Hf.
  - intros Hnd. apply NoDup_cons in Hnd as [Hni _]. apply Hni. right. left.
Qed.
(** A codec that refuses empty values. *)
Definition nec (v : bytes) : res bytes := match v with [] => Err "empty value" | _ => Ok v end.
Example C71_insert_refused : out HB toy (insert nec 17 None [K3; K1] [v1; []]) (b_init HB) = RErr "empty value".
Proof.
  assert (codec_ok nec idc) as Hc.
  { split; [intros [|b v]; discriminate|intros e; discriminate|intros [|b v] e; [discriminate|intros [= <-]; reflexivity]]. }
  destruct (C71_insert 2 HB _ toy _ nec idc (Nat.lt_0_succ 1) Hc (b_init HB) [] [] 17 None ∅ [K3; K1] [v1; []]) as [Hr _];
    [left; constructor|apply no_collision_b_sound; vm_compute; reflexivity|reflexivity|reflexivity|discriminate|].
  destruct Hr as (v & er & Hv & Her & Ho).
  - apply NoDup_cons. split; [|apply NoDup_singleton]. intros [=]%elem_of_list_singleton.
  - exists []. split; [right; left|]. intros e [=].
  - rewrite Ho. f_equal. destruct v; [injection Her as <-; reflexivity|discriminate Her].
Qed.

(** C71: a root that is not stored, in any database. *)
Theorem C71_missing :
  ∀ (n : nat) (B : backend n) (HB : BackendOk B) (H : list bytes → arr n)
    (V : Type) (enc : V → res bytes) (dec : bytes → res V), 0 < n → codec_ok enc dec →
  ∀ st r, b_vis B st !! r = None →
  (∀ D k, out B H (generate_inclusion_proof D r k) st = RErr "Failed to find node") ∧
  (∀ D ks vs, length ks = length vs → ks ≠ [] → (∀ v, v ∈ vs → ∃ e, enc v = Ok e) →
     (∀ x, x ∈ hlog B H (insert enc D (Some r) ks vs) st → H x ≠ r) →
     out B H (insert enc D (Some r) ks vs) st = RErr "Could not find root").
Proof. intros n B HB H V enc dec Hn Hc. exact (missing_outcome Hn B H enc dec Hc). Qed.
Print Assumptions C71_missing.
Example C71_missing_case : out HB toy (insert idc 17 (Some K5) [K1; K2] [v1; v2]) (s3 HB) = RErr "Could not find root".
Proof.
  apply (C71_missing 2 HB _ toy _ idc idc (Nat.lt_0_succ 1) idc_ok); [vm_compute; reflexivity|reflexivity|discriminate|intros v _; by eexists|].
  intros x Hx He.
  assert (forallb (λ x, negb (bool_decide (toy x = K5)))
    (hlog HB toy (insert idc 17 (Some K5) [K1; K2] [v1; v2]) (s3 HB)) = true) as Hf by (vm_compute; reflexivity).
  rewrite forallb_forall in Hf. apply elem_of_list_In, Hf in Hx. by rewrite bool_decide_eq_true_2 in Hx.
Qed.
