(** * Depth limits, restarts, trees below a root, stray removals
    Statements only; see PropsHist.v for the conventions.  [live] is defined in
    Spec.v. *)
From Coq Require Import Strings.Byte NArith.
From stdpp Require Import prelude countable gmap sorting strings.
From Verif Require Import Model Bits Spec Logic Safe Claims Live Regrow Weak Exact Stray Limits Need
  Scenario Scenario4 Refuted.

Local Open Scope nat_scope.

Notation HB := (hash_db 2). Notation RB := (rocks_db 2).
Ltac nc := apply no_collision_b_sound; vm_compute; reflexivity.

(** C42: a second removal is harmless if and only if the first one has not left the root's node with exactly
    one reference (which is then that of another live root). *)
Theorem C42_exact :
  ∀ (n : nat) (B : backend n) (HB : BackendOk B) (H : list bytes → arr n)
    (V : Type) (enc : V → res bytes) (dec : bytes → res V), 0 < n → codec_ok enc dec →
  ∀ st lg hs r M hs',
  rhist B H enc dec st lg hs → no_collision H lg → hs ≡ₚ (r, M) :: hs' →
  let st1 := fin B H (remove_prog B st r) st in
  let st2 := fin B H (remove_prog B st1 r) st1 in
  (∀ r' M', (r', M') ∈ hs' → holds B H dec st2 r' M') ↔ (∀ nd, b_vis B st1 !! r = Some nd → refs nd ≠ 1).
Proof. intros n B HB H V enc dec Hn Hc. exact (remove_twice_exact Hn B H enc dec Hc). Qed.
Print Assumptions C42_exact.
Example C42_exact_case : ¬ (∀ r' M', (r', M') ∈ [(wr2 RB, W2)] → holds RB toy idc (ws4 RB) r' M').
Proof.
  intros Hall.
  refine (proj1 (C42_exact 2 RB _ toy _ idc idc ltac:(lia) idc_ok (ws2 RB) (lg1 RB ++ hlog RB toy (w2 RB) (s1 RB)) [(wr2 RB, W2); (r1 RB, M1)] (r1 RB) M1
    [(wr2 RB, W2)] _ _ (Permutation_swap _ _ _)) Hall (the_node (b_vis RB (ws3 RB) !! r1 RB)) _ _);
    [apply twice_hist; vm_compute; reflexivity|nc|vm_compute; reflexivity|vm_compute; reflexivity].
Qed.

(** C42, for the removal of any location, root or not. *)
Theorem C42_stray :
  ∀ (n : nat) (B : backend n) (HB : BackendOk B) (H : list bytes → arr n)
    (V : Type) (enc : V → res bytes) (dec : bytes → res V), 0 < n → codec_ok enc dec →
  ∀ st lg hs r, rhist B H enc dec st lg hs → no_collision H lg →
  ((∀ nd, b_vis B st !! r = Some nd → refs nd ≠ 1) →
     ∀ r' M', (r', M') ∈ hs → serves B H enc dec (fin B H (remove_prog B st r) st) r' M') ∧
  (∀ nd, b_vis B st !! r = Some nd → refs nd = 1 →
     ∃ r' M' k v, (r', M') ∈ hs ∧ M' !! k = Some v ∧
       ∀ D, out B H (get_one dec D r' k) (fin B H (remove_prog B st r) st) ≠ ROk (Some v)).
Proof. intros n B HB H V enc dec Hn Hc. exact (λ st lg hs r Hh Hnc, conj (stray_harmless Hn B H enc dec Hc st lg hs r Hh Hnc) (λ nd, stray_damage Hn B H enc dec Hc st lg hs r nd Hh Hnc)). Qed.
Print Assumptions C42_stray.
(** A location that is not stored; and the leaf of [K5]. *)
Example C42_stray_case : serves HB toy idc idc (fin HB toy (remove_prog HB (q4 HB) K1) (q4 HB)) (r2 HB) M2 ∧
  ∃ r' M' k v, (r', M') ∈ hs4 HB ∧ M' !! k = Some v ∧
    ∀ D, out HB toy (get_one idc D r' k) (fin HB toy (remove_prog HB (q4 HB) (toy (leaf_in K5 (toy (data_in K5 v1))))) (q4 HB)) ≠ ROk (Some v).
Proof.
  split.
  - refine (proj1 (C42_stray 2 HB _ toy _ idc idc ltac:(lia) idc_ok _ _ _ K1 hash_scenario2 hash_scenario2_nc) _ _ _ _); [|right; left].
    assert (b_vis HB (q4 HB) !! K1 = None) as ->; [vm_compute; reflexivity|done].
  - refine (proj2 (C42_stray 2 HB _ toy _ idc idc ltac:(lia) idc_ok _ _ _ _ hash_scenario2 hash_scenario2_nc)
      (the_node (b_vis HB (q4 HB) !! toy (leaf_in K5 (toy (data_in K5 v1))))) _ _); vm_compute; reflexivity.
Qed.

(** C59: [st] is arbitrary, also with writes queued by earlier failing calls. *)
Theorem C59_durable :
  ∀ (n : nat) (H : list bytes → arr n) (V : Type) (enc : V → res bytes) (st : rocks_st n),
  (∀ D prev ks vs r, out (rocks_db n) H (insert enc D prev ks vs) st = ROk r →
     let st' := fin (rocks_db n) H (insert enc D prev ks vs) st in b_drop (rocks_db n) st' = st') ∧
  (∀ D prev k v r, out (rocks_db n) H (insert_one enc D prev k v) st = ROk r →
     let st' := fin (rocks_db n) H (insert_one enc D prev k v) st in b_drop (rocks_db n) st' = st') ∧
  (∀ r, let st' := fin (rocks_db n) H (remove_prog (rocks_db n) st r) st in b_drop (rocks_db n) st' = st').
Proof.  exact (λ n H V enc, durable H enc). Qed.
Print Assumptions C59_durable.
(** A state with a write in the queue. *)
Example C59_case : let st := b_put RB (s1 RB) K1 (Node 3 (VData [])) in
  b_drop RB st ≠ st ∧ (let st' := fin RB toy (i2 RB) st in b_drop RB st' = st').
Proof.
  intros st. split; [intros E; by apply (f_equal pending) in E|].
  exact (proj1 (C59_durable 2 toy _ idc st) 17 (Some (r1 RB)) [K3; K4] [v3; v4] (r2 RB) ltac:(vm_compute; reflexivity)).
Qed.

(** C60 *)
Theorem C60_need_exact :
  ∀ (n : nat) (B : backend n) (HB : BackendOk B) (H : list bytes → arr n)
    (V : Type) (enc : V → res bytes) (dec : bytes → res V), 0 < n → codec_ok enc dec →
  ∀ st lg r M k v, live B H enc dec st lg r M → no_collision H lg → M !! k = Some v →
  ∃ p, 2 ≤ length p ∧ length p ≤ 8 * n + 2 ∧ length p ≤ size M + 1 ∧ ∀ D,
    out B H (generate_inclusion_proof D r k) st =
      (if length p <=? D + 1 then ROk p else RErr "Depth limit exceeded") ∧
    out B H (get_one dec D r k) st =
      (if length p <=? D + 1 then ROk (Some v) else RErr "Depth limit exceeded") ∧
    out B H (get dec D r [k]) st =
      (if length p <=? D + 2 then ROk {[k := Some v]} else RErr "Depth of merkle tree exceeded").
Proof. intros n B HB H V enc dec Hn Hc. exact (need_exact Hn B H enc dec Hc). Qed.
Print Assumptions C60_need_exact.
Example C60_case : ∃ p : list (arr 2 * bool), ∀ D,
  out HB toy (get_one idc D (r4 HB) K5) (q4 HB) =
    (if length p <=? D + 1 then ROk (Some v1) else RErr "Depth limit exceeded").
Proof.
  destruct (C60_need_exact 2 HB _ toy _ idc idc ltac:(lia) idc_ok (q4 HB) (lg4 HB) (r4 HB) M4 K5 v1) as (p & _ & _ & _ & Hp);
    [|exact hash_scenario2_nc|vm_compute; reflexivity|exists p; apply Hp].
  exists (hs4 HB). split; [right; apply rhist_whist, hash_scenario2|left].
Qed.

(** C60: replacing the value of a key. *)
Theorem C60_overwrite :
  ∀ (n : nat) (B : backend n) (HB : BackendOk B) (H : list bytes → arr n)
    (V : Type) (enc : V → res bytes) (dec : bytes → res V), 0 < n → codec_ok enc dec →
  ∀ st lg hs r M k v p D0 v' D, hist B H enc dec st lg hs →
  no_collision H (lg ++ hlog B H (insert_one enc D (Some r) k v') st) → (r, M) ∈ hs → M !! k = Some v →
  out B H (generate_inclusion_proof D0 r k) st = ROk p → (∃ e, enc v' = Ok e) →
  if length p <=? D + 2 then ∃ r', out B H (insert_one enc D (Some r) k v') st = ROk r'
  else out B H (insert_one enc D (Some r) k v') st = (RErr "Depth of merkle tree exceeded").
Proof. intros n B HB H V enc dec Hn Hc. exact (overwrite_need Hn B H enc dec Hc). Qed.
Print Assumptions C60_overwrite.
Example C60_overwrite_case : out HB toy (insert_one idc 1 (Some (r2 HB)) K3 v4) (s3 HB) = RErr "Depth of merkle tree exceeded".
Proof.
  refine (C60_overwrite 2 HB _ toy _ idc idc ltac:(lia) idc_ok _ _ _ (r2 HB) M2 K3 v3 (the_root (out HB toy (generate_inclusion_proof 17 (r2 HB) K3) (s3 HB)) [])
    17 v4 1 hash_scenario _ ltac:(left) _ _ _);
    [nc|vm_compute; reflexivity|vm_compute; reflexivity|by eexists].
Qed.

(** C61: [B], [st] and the locations are arbitrary; [run] is the outcome, the final state and the strings hashed. *)
Theorem C61_raise_limit :
  ∀ (n : nat) (B : backend n) (H : list bytes → arr n)
    (V : Type) (enc : V → res bytes) (dec : bytes → res V) (D D' : nat), D ≤ D' → ∀ st,
  (∀ r k, out B H (get_one dec D r k) st = RErr "Depth limit exceeded" ∨
     run B H (get_one dec D' r k) st = run B H (get_one dec D r k) st) ∧
  (∀ r k, out B H (generate_inclusion_proof D r k) st = RErr "Depth limit exceeded" ∨
     run B H (generate_inclusion_proof D' r k) st = run B H (generate_inclusion_proof D r k) st) ∧
  (∀ r ks, out B H (get dec D r ks) st = RErr "Depth of merkle tree exceeded" ∨
     run B H (get dec D' r ks) st = run B H (get dec D r ks) st) ∧
  (∀ prev ks vs, out B H (insert enc D prev ks vs) st = RErr "Depth of merkle tree exceeded" ∨
     run B H (insert enc D' prev ks vs) st = run B H (insert enc D prev ks vs) st) ∧
  (∀ prev k v, out B H (insert_one enc D prev k v) st = RErr "Depth of merkle tree exceeded" ∨
     run B H (insert_one enc D' prev k v) st = run B H (insert_one enc D prev k v) st).
Proof.  exact (λ n B H V enc dec D D' HD, raise_limit B H enc dec D D' HD). Qed.
Print Assumptions C61_raise_limit.
Example C61_case : run HB toy (insert idc 40 (Some (r1 HB)) [K3; K4] [v3; v4]) (s1 HB) = run HB toy (i2 HB) (s1 HB).
Proof.
  destruct (proj1 (proj2 (proj2 (proj2 (C61_raise_limit 2 HB toy _ idc idc 17 40 ltac:(lia) (s1 HB)))))
    (Some (r1 HB)) [K3; K4] [v3; v4]) as [E|E]; [vm_compute in E; discriminate E|exact E].
Qed.

(** C62 *)
Theorem C62_below :
  ∀ (n : nat) (B : backend n) (HB : BackendOk B) (H : list bytes → arr n)
    (V : Type) (enc : V → res bytes) (dec : bytes → res V), 0 < n → codec_ok enc dec →
  ∀ st lg r M x rf, live B H enc dec st lg r M → no_collision H lg → rtc (child (b_vis B st)) r x →
  (∀ c z o si bk, b_vis B st !! x = Some (Node rf (VBranch c z o si bk)) →
     let M' := filter (λ kv, si ≤ klcp kv.1 bk) M in
     c = size M' ∧ bk ∈ dom M' ∧ serves B H enc dec st x M') ∧
  (∀ k d, b_vis B st !! x = Some (Node rf (VLeaf k d)) → ∃ v, M !! k = Some v ∧ serves B H enc dec st x {[k := v]}).
Proof. intros n B HB H V enc dec Hn Hc. exact (below_serves Hn B H enc dec Hc). Qed.
Print Assumptions C62_below.
(** A leaf below a root. *)
Example C62_case : ∃ v, M2 !! K4 = Some v ∧ serves HB toy idc idc (s3 HB) (toy (leaf_in K4 (toy (data_in K4 v4)))) {[K4 := v]}.
Proof.
  refine (proj2 (C62_below 2 HB _ toy _ idc idc ltac:(lia) idc_ok (s3 HB) (lg3 HB) (r2 HB) M2 (toy (leaf_in K4 (toy (data_in K4 v4)))) 2 _ hash_scenario_nc _)
    K4 (toy (data_in K4 v4)) _).
  - exists (hs2 HB). split; [left; exact hash_scenario|left].
  - apply rtc_once. exists (the_node (b_vis HB (s3 HB) !! r2 HB)). split; [vm_compute; reflexivity|].
    apply elem_of_list_lookup. exists 1. vm_compute. reflexivity.
  - vm_compute. reflexivity.
Qed.

(** C63 *)
Theorem C63_reinsert :
  ∀ (n : nat) (B : backend n) (HB : BackendOk B) (H : list bytes → arr n)
    (V : Type) (enc : V → res bytes) (dec : bytes → res V), 0 < n → codec_ok enc dec →
  ∀ st lg hs r M ks vs D, hist B H enc dec st lg hs →
  no_collision H (lg ++ hlog B H (insert enc D (Some r) ks vs) st) → (r, M) ∈ hs →
  length ks = length vs → ks ≠ [] → NoDup ks → (∀ k v, (k, v) ∈ zip ks vs → M !! k = Some v) → 8 * n ≤ D →
  out B H (insert enc D (Some r) ks vs) st = ROk r.
Proof. intros n B HB H V enc dec Hn Hc. exact (reinsert Hn B H enc dec Hc). Qed.
Print Assumptions C63_reinsert.
Example C63_case : out RB toy (insert idc 17 (Some (r2 RB)) [K4; K1] [v4; v1]) (s3 RB) = ROk (r2 RB).
Proof.
  refine (C63_reinsert 2 RB _ toy _ idc idc ltac:(lia) idc_ok _ _ _ (r2 RB) M2 [K4; K1] [v4; v1] 17 rocks_scenario _ ltac:(left) _ _ _ _ _);
    [nc|done|done|apply (bool_decide_unpack _); vm_compute; exact I| |lia].
  intros k v Hin. cbn in Hin. apply elem_of_cons in Hin as [[= -> ->]|Hin]; [vm_compute; reflexivity|].
  apply elem_of_list_singleton in Hin as [= -> ->]. vm_compute. reflexivity.
Qed.
