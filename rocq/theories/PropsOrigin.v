(** * Arbitrary batches: where the entries of a tree come from
    Statements only; see PropsHist.v for the conventions.  [uhist] and [pair_below] are defined in
    Spec.v. *)
From Coq Require Import Strings.Byte NArith.
From stdpp Require Import prelude countable gmap sorting strings.
From Verif Require Import Model Bits Spec Logic Safe Claims Live Origin
  Scenario Scenario4 Refuted.

Local Open Scope nat_scope.

Notation HB := (hash_db 2). Notation RB := (rocks_db 2).
Ltac nc := apply no_collision_b_sound; vm_compute; reflexivity.

(** The hazardous batch of [C03_refuted]: [K60] cannot be read below the second root. *)
Notation ups1 := (zip [K1; K2; K60] [v1; v2; v5]).
Notation ups2 := (zip [K3; KX; KA] [v3; v4; v5] ++ ups1).
Notation ulg2 := (hlog HB toy j1 (b_init HB) ++ hlog HB toy (j2 HB) (t1 HB)).

Example uhist_case : uhist HB toy idc idc (t2 HB) ulg2 [(p2 HB, ups2); (p1 HB, ups1)].
Proof.
  refine (uhist_insert HB toy idc idc (t1 HB) (hlog HB toy j1 (b_init HB)) [(p1 HB, ups1)] 17 (Some (p1 HB)) ups1
    [K3; KX; KA] [v3; v4; v5] (p2 HB) _ _ _); [|left|vm_compute; reflexivity].
  refine (uhist_insert HB toy idc idc (b_init HB) [] [] 17 None [] [K1; K2; K60] [v1; v2; v5] (p1 HB) _ _ _);
    [apply uhist_init|done|vm_compute; reflexivity].
Qed.
Example uhist_nc : no_collision toy ulg2.
Proof. nc. Qed.
Example uhist_lost : out HB toy (get_one idc 17 (p2 HB) K60) (t2 HB) = ROk None.
Proof. vm_compute. reflexivity. Qed.

(** C64, single-key reads. *)
Theorem C64_get_one :
  ∀ (n : nat) (B : backend n) (HB : BackendOk B) (H : list bytes → arr n)
    (V : Type) (enc : V → res bytes) (dec : bytes → res V), 0 < n → codec_ok enc dec →
  ∀ st lg us r ps D k, uhist B H enc dec st lg us → no_collision H lg → (r, ps) ∈ us →
  out B H (get_one dec D r k) st = RErr "Depth limit exceeded" ∨
  ∃ o, out B H (get_one dec D r k) st = ROk o ∧ ∀ v, o = Some v → (k, v) ∈ ps.
Proof. intros n B HB H V enc dec Hn Hc. exact (get_one_origin Hn B H enc dec Hc). Qed.
Print Assumptions C64_get_one.
Example C64_get_one_case : (K3, v3) ∈ ups2.
Proof.
  destruct (C64_get_one 2 HB _ toy _ idc idc (Nat.lt_0_succ 1) idc_ok _ _ _ _ _ 17 K3 uhist_case uhist_nc (elem_of_list_here _ _)) as [Hd|(o & Ho & Hv)].
  - assert (is_ok (out HB toy (get_one idc 17 (p2 HB) K3) (t2 HB)) = true) as Ht by (vm_compute; reflexivity).
    rewrite Hd in Ht. discriminate Ht.
  - apply Hv. assert (out HB toy (get_one idc 17 (p2 HB) K3) (t2 HB) = ROk (Some v3)) as Ht by (vm_compute; reflexivity).
    rewrite Ht in Ho. by injection Ho.
Qed.

(** C64, multi-key reads. *)
Theorem C64_get :
  ∀ (n : nat) (B : backend n) (HB : BackendOk B) (H : list bytes → arr n)
    (V : Type) (enc : V → res bytes) (dec : bytes → res V), 0 < n → codec_ok enc dec →
  ∀ st lg us r ps D ks, uhist B H enc dec st lg us → no_collision H lg → (r, ps) ∈ us →
  out B H (get dec D r ks) st = RErr "Depth of merkle tree exceeded" ∨
  ∃ lm, out B H (get dec D r ks) st = ROk lm ∧ (∀ k, is_Some (lm !! k) ↔ k ∈ ks) ∧
    ∀ k v, lm !! k = Some (Some v) → (k, v) ∈ ps.
Proof. intros n B HB H V enc dec Hn Hc. exact (get_origin Hn B H enc dec Hc). Qed.
Print Assumptions C64_get.
Example C64_get_case : ∃ lm, out HB toy (get idc 17 (p2 HB) [K1; K60; KX]) (t2 HB) = ROk lm ∧
  ∀ k v, lm !! k = Some (Some v) → (k, v) ∈ ups2.
Proof.
  destruct (C64_get 2 HB _ toy _ idc idc (Nat.lt_0_succ 1) idc_ok _ _ _ _ _ 17 [K1; K60; KX] uhist_case uhist_nc (elem_of_list_here _ _)) as [Hd|(lm & Ho & _ & Hv)].
  - assert (is_ok (out HB toy (get idc 17 (p2 HB) [K1; K60; KX]) (t2 HB)) = true) as Ht by (vm_compute; reflexivity).
    rewrite Hd in Ht. discriminate Ht.
  - exists lm. split; [exact Ho|exact Hv].
Qed.

(** C64, proofs: [proof] is arbitrary. *)
Theorem C64_proof :
  ∀ (n : nat) (B : backend n) (HB : BackendOk B) (H : list bytes → arr n)
    (V : Type) (enc : V → res bytes) (dec : bytes → res V), 0 < n → codec_ok enc dec →
  ∀ st lg us r ps k v proof (B' : backend n) (st' : b_st B'),
  uhist B H enc dec st lg us → (r, ps) ∈ us →
  no_collision H (lg ++ hlog B' H (verify_inclusion_proof enc r k v proof) st') →
  out B' H (verify_inclusion_proof enc r k v proof) st' = ROk tt → (k, v) ∈ ps.
Proof. intros n B HB H V enc dec Hn Hc. exact (proof_origin Hn B H enc dec Hc). Qed.
Print Assumptions C64_proof.
Example C64_proof_case : ∀ proof,
  no_collision toy (ulg2 ++ hlog HB toy (verify_inclusion_proof idc (p2 HB) K5 v1 proof) (b_init HB)) →
  out HB toy (verify_inclusion_proof idc (p2 HB) K5 v1 proof) (b_init HB) ≠ ROk tt.
Proof.
  intros proof Hc Ho.
  pose proof (C64_proof 2 HB _ toy _ idc idc (Nat.lt_0_succ 1) idc_ok _ _ _ _ _ _ _ _ HB (b_init HB) uhist_case (elem_of_list_here _ _) Hc Ho) as Hin.
  assert (bool_decide ((K5, v1) ∈ ups2) = false) as Hf by (vm_compute; reflexivity).
  by apply bool_decide_eq_false in Hf.
Qed.
Example C64_proof_hyps : let p := match out HB toy (generate_inclusion_proof 17 (p2 HB) KX) (t2 HB) with ROk p => p | _ => [] end in
  no_collision toy (ulg2 ++ hlog HB toy (verify_inclusion_proof idc (p2 HB) KX v4 p) (b_init HB)) ∧
  out HB toy (verify_inclusion_proof idc (p2 HB) KX v4 p) (b_init HB) = ROk tt.
Proof. split; [nc|vm_compute; reflexivity]. Qed.

(** C64, the database below the root. *)
Theorem C64_stored :
  ∀ (n : nat) (B : backend n) (HB : BackendOk B) (H : list bytes → arr n)
    (V : Type) (enc : V → res bytes) (dec : bytes → res V), 0 < n → codec_ok enc dec →
  ∀ st lg us r ps k e, uhist B H enc dec st lg us → no_collision H lg → (r, ps) ∈ us →
  pair_below (b_vis B st) r k e → ∃ v, (k, v) ∈ ps ∧ enc v = Ok e.
Proof. intros n B HB H V enc dec Hn Hc. exact (stored_origin Hn B H enc dec Hc). Qed.
Print Assumptions C64_stored.
Example C64_stored_case : ¬ pair_below (b_vis HB (t2 HB)) (p2 HB) K5 v1.
Proof.
  intros Hp. destruct (C64_stored 2 HB _ toy _ idc idc (Nat.lt_0_succ 1) idc_ok _ _ _ _ _ _ _ uhist_case uhist_nc (elem_of_list_here _ _) Hp) as (v & Hin & Hv).
  injection Hv as ->. assert (bool_decide ((K5, v1) ∈ ups2) = false) as Hf by (vm_compute; reflexivity).
  by apply bool_decide_eq_false in Hf.
Qed.

(** C65: [list_to_map ps !! k] is the value last given for [k]. *)
Theorem C65_kept :
  ∀ (n : nat) (B : backend n) (HB : BackendOk B) (H : list bytes → arr n)
    (V : Type) (enc : V → res bytes) (dec : bytes → res V), 0 < n → codec_ok enc dec →
  ∀ st lg us r ps k v, uhist B H enc dec st lg us → no_collision H lg → (r, ps) ∈ us →
  (list_to_map ps : gmap (arr n) V) !! k = Some v → ∃ e, enc v = Ok e ∧ pair_below (b_vis B st) r k e.
Proof. intros n B HB H V enc dec Hn Hc. exact (stored_kept Hn B H enc dec Hc). Qed.
Print Assumptions C65_kept.
(** The pair that [get_one] does not find is there. *)
Example C65_kept_case : pair_below (b_vis HB (t2 HB)) (p2 HB) K60 v5.
Proof.
  destruct (C65_kept 2 HB _ toy _ idc idc (Nat.lt_0_succ 1) idc_ok _ _ _ _ _ K60 v5 uhist_case uhist_nc (elem_of_list_here _ _) ltac:(vm_compute; reflexivity))
    as (e & He & Hp). by injection He as <-.
Qed.

(** C66 *)
Theorem C66_agree :
  ∀ (n : nat) (B : backend n) (HB : BackendOk B) (H : list bytes → arr n)
    (V : Type) (enc : V → res bytes) (dec : bytes → res V), 0 < n → codec_ok enc dec →
  ∀ st lg us r ps D k (B' : backend n) (st' : b_st B'),
  uhist B H enc dec st lg us → no_collision H lg → (r, ps) ∈ us →
  match out B H (get_one dec D r k) st with
  | ROk (Some v) => ∃ p, out B H (generate_inclusion_proof D r k) st = ROk p ∧
                       out B' H (verify_inclusion_proof enc r k v p) st' = ROk tt
  | ROk None => out B H (generate_inclusion_proof D r k) st = RErr "Key not found in tree"
  | RErr er => out B H (generate_inclusion_proof D r k) st = RErr er
  | _ => False
  end.
Proof. intros n B HB H V enc dec Hn Hc. exact (proof_agrees Hn B H enc dec Hc). Qed.
Print Assumptions C66_agree.
Example C66_case_absent : out HB toy (generate_inclusion_proof 17 (p2 HB) K60) (t2 HB) = RErr "Key not found in tree".
Proof.
  pose proof (C66_agree 2 HB _ toy _ idc idc (Nat.lt_0_succ 1) idc_ok _ _ _ _ _ 17 K60 RB (b_init RB) uhist_case uhist_nc (elem_of_list_here _ _)) as H1.
  rewrite uhist_lost in H1. exact H1.
Qed.
Example C66_case : ∃ p, out HB toy (generate_inclusion_proof 17 (p2 HB) KX) (t2 HB) = ROk p ∧
  out RB toy (verify_inclusion_proof idc (p2 HB) KX v4 p) (b_init RB) = ROk tt.
Proof.
  assert (out HB toy (get_one idc 17 (p2 HB) KX) (t2 HB) = ROk (Some v4)) as Ht by (vm_compute; reflexivity).
  pose proof (C66_agree 2 HB _ toy _ idc idc (Nat.lt_0_succ 1) idc_ok _ _ _ _ _ 17 KX RB (b_init RB) uhist_case uhist_nc (elem_of_list_here _ _)) as H2.
  rewrite Ht in H2. exact H2.
Qed.
