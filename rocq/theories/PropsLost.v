(** * Damaged and altered databases
    Statements only; see PropsHist.v for the conventions.  [live] and [on_way] are defined in Spec.v,
    [wild] in Wild.v, the scenario in Refuted.v and Scenario8.v: [ws2] is an intact database with the root
    [wr2], [ws4] the same after another root, which is a part of [wr2], was removed twice. *)
From Coq Require Import Strings.Byte NArith.
From stdpp Require Import prelude countable gmap sorting strings.
From Verif Require Import Model Bits Spec Logic Safe Claims Live Machine Wild Lost Calm Scenario Refuted Scenario8.

Local Open Scope nat_scope.

Notation HB := (hash_db 2). Notation RB := (rocks_db 2).
Ltac nc := apply no_collision_b_sound; vm_compute; reflexivity.

Example intact : live HB toy idc idc (ws2 HB) (dlg HB) (wr2 HB) W2.
Proof. apply damaged_live; vm_compute; reflexivity. Qed.
Example damaged : wild RB toy idc idc (ws4 RB) (dlg RB).
Proof. apply damaged_twice; vm_compute; reflexivity. Qed.
Example damaged_nc : no_collision toy (dlg HB ++ dlg RB).
Proof. nc. Qed.
Example only_data : wild RB toy idc idc (sd RB) (dlg RB).
Proof. apply data_lost; vm_compute; reflexivity. Qed.
Example damaged_lost : b_vis RB (ws4 RB) !! r1 HB = None.
Proof. vm_compute. reflexivity. Qed.

(** C78: after a second removal of another root, [get_one] and [get] report a key as absent that the root holds; generating a proof fails. *)
Theorem C78_refuted :
  ∀ B : backend 2, B = hash_db 2 ∨ B = rocks_db 2 →
  ∃ st lg hs r1 M1 r M k v, rhist B toy idc idc st lg hs ∧ no_collision toy lg ∧ hs = [(r, M); (r1, M1)] ∧ r ≠ r1 ∧ M !! k = Some v ∧
    let st1 := fin B toy (remove_prog B st r1) st in
    let st2 := fin B toy (remove_prog B st1 r1) st1 in
    out B toy (get_one idc 17 r k) st2 = ROk None ∧
    (∃ lm, out B toy (get idc 17 r [k]) st2 = ROk lm ∧ lm !! k = Some None) ∧
    out B toy (generate_inclusion_proof 17 r k) st2 = RErr "Failed to find node".
Proof.  exact lost_refuted. Qed.
Print Assumptions C78_refuted.

(** C78, [get_one]: on a damaged database ([st]) the value or nothing, according to whether a node on the way to the key is lost.  [st0] is an intact database with the root.  Missing: that a lost node is reported; false by [C78_refuted]. *)
Theorem C78_get_one_partial :
  ∀ (n : nat) (B1 B2 : backend n) (HB1 : BackendOk B1) (HB2 : BackendOk B2) (H : list bytes → arr n)
    (V : Type) (enc : V → res bytes) (dec : bytes → res V), 0 < n → codec_ok enc dec →
  ∀ st0 lg0 r M st lg D k, live B1 H enc dec st0 lg0 r M → wild B2 H enc dec st lg →
  no_collision H (lg0 ++ lg) → 8 * n + 1 ≤ D →
  (M !! k = None → out B2 H (get_one dec D r k) st = ROk None) ∧
  (∀ v, M !! k = Some v →
    ((∀ x, on_way (b_vis B1 st0) r k x → is_Some (b_vis B2 st !! x)) → out B2 H (get_one dec D r k) st = ROk (Some v)) ∧
    (∀ x, on_way (b_vis B1 st0) r k x → b_vis B2 st !! x = None → out B2 H (get_one dec D r k) st = ROk None)).
Proof. intros n B1 B2 HB1 HB2 H V enc dec Hn Hc. exact (lost_get_one Hn B1 B2 H enc dec Hc). Qed.
Print Assumptions C78_get_one_partial.
Example C78_get_one_lost : out RB toy (get_one idc 17 (wr2 HB) K1) (ws4 RB) = ROk None.
Proof.
  refine (proj2 (proj2 (C78_get_one_partial 2 HB RB _ _ toy _ idc idc (Nat.lt_0_succ 1) idc_ok _ _ _ _ _ _ 17 K1 intact damaged damaged_nc (le_n 17)) v1 _) _ way_K1 damaged_lost).
  vm_compute. reflexivity.
Qed.
Example C78_get_one_intact : ∀ x, on_way (b_vis HB (ws2 HB)) (wr2 HB) KX x → is_Some (b_vis RB (ws4 RB) !! x).
Proof.
  intros x Hx. destruct (b_vis RB (ws4 RB) !! x) as [nd|] eqn:Hv; [by exists nd|].
  pose proof (proj2 (proj2 (C78_get_one_partial 2 HB RB _ _ toy _ idc idc (Nat.lt_0_succ 1) idc_ok _ _ _ _ _ _ 17 KX intact damaged damaged_nc (le_n 17)) v5
    ltac:(vm_compute; reflexivity)) x Hx Hv) as He. vm_compute in He. discriminate He.
Qed.

(** C78, proofs: here a lost node is reported.  What is proved from a damaged database is the proof of the intact one. *)
Theorem C78_prove :
  ∀ (n : nat) (B1 B2 : backend n) (HB1 : BackendOk B1) (HB2 : BackendOk B2) (H : list bytes → arr n)
    (V : Type) (enc : V → res bytes) (dec : bytes → res V), 0 < n → codec_ok enc dec →
  ∀ st0 lg0 r M st lg D k, live B1 H enc dec st0 lg0 r M → wild B2 H enc dec st lg →
  no_collision H (lg0 ++ lg) → 8 * n + 1 ≤ D →
  (M !! k = None → out B2 H (generate_inclusion_proof D r k) st = RErr "Key not found in tree" ∨
                   out B2 H (generate_inclusion_proof D r k) st = RErr "Failed to find node") ∧
  (∀ v, M !! k = Some v →
    ((∀ x, on_way (b_vis B1 st0) r k x → is_Some (b_vis B2 st !! x)) →
       ∃ p, out B2 H (generate_inclusion_proof D r k) st = ROk p ∧
            out B1 H (generate_inclusion_proof D r k) st0 = ROk p) ∧
    (∀ x, on_way (b_vis B1 st0) r k x → b_vis B2 st !! x = None →
       out B2 H (generate_inclusion_proof D r k) st = RErr "Failed to find node")).
Proof. intros n B1 B2 HB1 HB2 H V enc dec Hn Hc. exact (lost_prove Hn B1 B2 H enc dec Hc). Qed.
Print Assumptions C78_prove.
Example C78_prove_lost : out RB toy (generate_inclusion_proof 17 (wr2 HB) K1) (ws4 RB) = RErr "Failed to find node".
Proof.
  refine (proj2 (proj2 (C78_prove 2 HB RB _ _ toy _ idc idc (Nat.lt_0_succ 1) idc_ok _ _ _ _ _ _ 17 K1 intact damaged damaged_nc (le_n 17)) v1 _) _ way_K1 damaged_lost).
  vm_compute. reflexivity.
Qed.
Example C78_prove_intact : ∃ p, out RB toy (generate_inclusion_proof 17 (wr2 HB) KX) (ws4 RB) = ROk p ∧
  out HB toy (generate_inclusion_proof 17 (wr2 HB) KX) (ws2 HB) = ROk p.
Proof.
  refine (proj1 (proj2 (C78_prove 2 HB RB _ _ toy _ idc idc (Nat.lt_0_succ 1) idc_ok _ _ _ _ _ _ 17 KX intact damaged damaged_nc (le_n 17)) v5 _) C78_get_one_intact).
  vm_compute. reflexivity.
Qed.

(** C78, [get]: an error or, for each key, its value or nothing.  Missing: that a lost node is always reported; false by [C78_refuted]. *)
Theorem C78_get_partial :
  ∀ (n : nat) (B1 B2 : backend n) (HB1 : BackendOk B1) (HB2 : BackendOk B2) (H : list bytes → arr n)
    (V : Type) (enc : V → res bytes) (dec : bytes → res V), 0 < n → codec_ok enc dec →
  ∀ st0 lg0 r M st lg D ks, live B1 H enc dec st0 lg0 r M → wild B2 H enc dec st lg →
  no_collision H (lg0 ++ lg) → 8 * n ≤ D →
  out B2 H (get dec D r ks) st = RErr "Corrupt merkle tree: Failed to get leaf node from DB" ∨
  ∃ lm, out B2 H (get dec D r ks) st = ROk lm ∧
    ∀ k, (k ∉ ks → lm !! k = None) ∧ (k ∈ ks → lm !! k = Some None ∨ lm !! k = Some (M !! k)).
Proof. intros n B1 B2 HB1 HB2 H V enc dec Hn Hc. exact (lost_get Hn B1 B2 H enc dec Hc). Qed.
Print Assumptions C78_get_partial.
Example C78_get_case : ∃ lm, out RB toy (get idc 17 (wr2 HB) [K1; KX]) (ws4 RB) = ROk lm ∧ lm !! K1 = Some None ∧ lm !! KX = Some (W2 !! KX).
Proof.
  destruct (C78_get_partial 2 HB RB _ _ toy _ idc idc (Nat.lt_0_succ 1) idc_ok _ _ _ _ _ _ 17 [K1; KX] intact damaged damaged_nc (le_S _ _ (le_n 16))) as [He|(lm & Ho & Hk)].
  - exfalso. assert (is_ok (out RB toy (get idc 17 (wr2 HB) [K1; KX]) (ws4 RB)) = true) as Ht by (vm_compute; reflexivity).
    rewrite He in Ht. discriminate Ht.
  - exists lm. split; [exact Ho|].
    assert (match out RB toy (get idc 17 (wr2 HB) [K1; KX]) (ws4 RB) with ROk lm => (lm !! K1, lm !! KX) | _ => (None, None) end
      = (Some None, Some (W2 !! KX))) as Ht by (vm_compute; reflexivity).
    rewrite Ho in Ht. injection Ht as H1 H2. split; [exact H1|exact H2].
Qed.

(** C78, [get] of one key: the value if nothing on the way is lost, an error if only the data is lost, nothing if a branch or leaf is lost. *)
Theorem C78_get_single :
  ∀ (n : nat) (B1 B2 : backend n) (HB1 : BackendOk B1) (HB2 : BackendOk B2) (H : list bytes → arr n)
    (V : Type) (enc : V → res bytes) (dec : bytes → res V), 0 < n → codec_ok enc dec →
  ∀ st0 lg0 r M st lg D k v, live B1 H enc dec st0 lg0 r M → wild B2 H enc dec st lg →
  no_collision H (lg0 ++ lg) → 8 * n ≤ D → M !! k = Some v →
  ((∀ x, on_way (b_vis B1 st0) r k x → is_Some (b_vis B2 st !! x)) →
     out B2 H (get dec D r [k]) st = ROk {[k := Some v]}) ∧
  (∀ x rf e, on_way (b_vis B1 st0) r k x → b_vis B1 st0 !! x = Some (Node rf (VData e)) → b_vis B2 st !! x = None →
     (∀ y, on_way (b_vis B1 st0) r k y → y ≠ x → is_Some (b_vis B2 st !! y)) →
     out B2 H (get dec D r [k]) st = RErr "Corrupt merkle tree: Failed to get leaf node from DB") ∧
  (∀ x rf w, on_way (b_vis B1 st0) r k x → b_vis B1 st0 !! x = Some (Node rf w) → (∀ e, w ≠ VData e) →
     b_vis B2 st !! x = None → out B2 H (get dec D r [k]) st = ROk {[k := None]}).
Proof. intros n B1 B2 HB1 HB2 H V enc dec Hn Hc. exact (lost_get_single Hn B1 B2 H enc dec Hc). Qed.
Print Assumptions C78_get_single.
Example C78_get_single_lost : out RB toy (get idc 17 (wr2 HB) [K1]) (ws4 RB) = ROk {[K1 := None]}.
Proof.
  refine (proj2 (proj2 (C78_get_single 2 HB RB _ _ toy _ idc idc (Nat.lt_0_succ 1) idc_ok _ _ _ _ _ _ 17 K1 v1 intact damaged damaged_nc (le_S _ _ (le_n 16)) _)) _ _ _ way_K1 _ _ damaged_lost);
    [vm_compute; reflexivity..|]. intros e. discriminate.
Qed.
Example C78_get_single_intact : out RB toy (get idc 17 (wr2 HB) [KX]) (ws4 RB) = ROk {[KX := Some v5]}.
Proof.
  refine (proj1 (C78_get_single 2 HB RB _ _ toy _ idc idc (Nat.lt_0_succ 1) idc_ok _ _ _ _ _ _ 17 KX v5 intact damaged damaged_nc (le_S _ _ (le_n 16)) _) C78_get_one_intact).
  vm_compute. reflexivity.
Qed.
Example C78_get_single_data : out RB toy (get idc 17 (wr2 HB) [K1]) (sd RB) = RErr "Corrupt merkle tree: Failed to get leaf node from DB".
Proof.
  refine (proj1 (proj2 (C78_get_single 2 HB RB _ _ toy _ idc idc (Nat.lt_0_succ 1) idc_ok _ _ _ _ _ _ 17 K1 v1 intact only_data damaged_nc (le_S _ _ (le_n 16)) _)) _ _ _ way_D1 _ _ only_way);
    vm_compute; reflexivity.
Qed.

(** C79, single-key reads.  [r] is any location, [lg1] and [lg2] the strings the two databases hashed. *)
Theorem C79_get_one :
  ∀ (n : nat) (B1 B2 : backend n) (HB1 : BackendOk B1) (HB2 : BackendOk B2) (H : list bytes → arr n)
    (V : Type) (enc : V → res bytes) (dec : bytes → res V), 0 < n → codec_ok enc dec →
  ∀ st1 st2 lg1 lg2 D1 D2 r k v1 v2, wild B1 H enc dec st1 lg1 → wild B2 H enc dec st2 lg2 → no_collision H (lg1 ++ lg2) →
  out B1 H (get_one dec D1 r k) st1 = ROk (Some v1) → out B2 H (get_one dec D2 r k) st2 = ROk (Some v2) → v1 = v2.
Proof. intros n B1 B2 HB1 HB2 H V enc dec Hn Hc. intros st1 st2 lg1 lg2 D1 D2. exact (wild_get_one Hn B1 B2 H enc dec st1 st2 lg1 lg2 D1 D2). Qed.
Print Assumptions C79_get_one.
Example C79_get_one_case : ∀ v, out RB toy (get_one idc 40 (wr2 HB) KX) (ws4 RB) = ROk (Some v) → v5 = v.
Proof.
  intros v. apply (C79_get_one 2 HB RB _ _ toy _ idc idc (Nat.lt_0_succ 1) idc_ok (ws2 HB) (ws4 RB) (dlg HB) (dlg RB) 17 40 (wr2 HB) KX v5 v);
    [exact (live_wild HB toy idc idc _ _ _ _ intact)|exact damaged|exact damaged_nc|vm_compute; reflexivity].
Qed.
Example C79_get_one_hyps : out RB toy (get_one idc 40 (wr2 HB) KX) (ws4 RB) = ROk (Some v5).
Proof. vm_compute. reflexivity. Qed.

(** C79, proofs. *)
Theorem C79_prove :
  ∀ (n : nat) (B1 B2 : backend n) (HB1 : BackendOk B1) (HB2 : BackendOk B2) (H : list bytes → arr n)
    (V : Type) (enc : V → res bytes) (dec : bytes → res V), 0 < n → codec_ok enc dec →
  ∀ st1 st2 lg1 lg2 D1 D2 r k p1 p2, wild B1 H enc dec st1 lg1 → wild B2 H enc dec st2 lg2 → no_collision H (lg1 ++ lg2) →
  out B1 H (generate_inclusion_proof D1 r k) st1 = ROk p1 → out B2 H (generate_inclusion_proof D2 r k) st2 = ROk p2 → p1 = p2.
Proof. intros n B1 B2 HB1 HB2 H V enc dec Hn Hc. intros st1 st2 lg1 lg2 D1 D2. exact (wild_prove Hn B1 B2 H enc dec st1 st2 lg1 lg2 D1 D2). Qed.
Print Assumptions C79_prove.
Example C79_prove_case : ∀ p1 p2, out HB toy (generate_inclusion_proof 17 (wr2 HB) KX) (ws2 HB) = ROk p1 →
  out RB toy (generate_inclusion_proof 40 (wr2 HB) KX) (ws4 RB) = ROk p2 → p1 = p2.
Proof.
  intros p1 p2. apply (C79_prove 2 HB RB _ _ toy _ idc idc (Nat.lt_0_succ 1) idc_ok (ws2 HB) (ws4 RB) (dlg HB) (dlg RB) 17 40 (wr2 HB) KX p1 p2);
    [exact (live_wild HB toy idc idc _ _ _ _ intact)|exact damaged|exact damaged_nc].
Qed.
Example C79_prove_hyps : is_ok (out HB toy (generate_inclusion_proof 17 (wr2 HB) KX) (ws2 HB)) = true ∧
  is_ok (out RB toy (generate_inclusion_proof 40 (wr2 HB) KX) (ws4 RB)) = true.
Proof. vm_compute. split; reflexivity. Qed.

(** C79, insertions: any batch, also a hazardous one, into any root. *)
Theorem C79_insert :
  ∀ (n : nat) (B1 B2 : backend n) (HB1 : BackendOk B1) (HB2 : BackendOk B2) (H : list bytes → arr n)
    (V : Type) (enc : V → res bytes) (dec : bytes → res V), 0 < n → codec_ok enc dec →
  ∀ st1 st2 lg1 lg2 D1 D2 prev ks vs r1 r2, wild B1 H enc dec st1 lg1 → wild B2 H enc dec st2 lg2 →
  no_collision H ((lg1 ++ hlog B1 H (insert enc D1 prev ks vs) st1) ++ (lg2 ++ hlog B2 H (insert enc D2 prev ks vs) st2)) →
  out B1 H (insert enc D1 prev ks vs) st1 = ROk r1 → out B2 H (insert enc D2 prev ks vs) st2 = ROk r2 → r1 = r2.
Proof. intros n B1 B2 HB1 HB2 H V enc dec Hn Hc. intros st1 st2 lg1 lg2 D1 D2. exact (wild_insert_same Hn B1 B2 H enc dec st1 st2 lg1 lg2 D1 D2). Qed.
Print Assumptions C79_insert.
Example C79_insert_case : ∀ r, out RB toy (d5 HB) (ws4 RB) = ROk r → out HB toy (d5 HB) (ws2 HB) = ROk r.
Proof.
  intros r Hr. destruct (out HB toy (d5 HB) (ws2 HB)) as [r'| | |] eqn:Ho; [|vm_compute in Ho; discriminate Ho..]. f_equal.
  apply (C79_insert 2 HB RB _ _ toy _ idc idc (Nat.lt_0_succ 1) idc_ok (ws2 HB) (ws4 RB) (dlg HB) (dlg RB) 17 17 (Some (wr2 HB)) [K4] [v4] r' r);
    [exact (live_wild HB toy idc idc _ _ _ _ intact)|exact damaged|nc|exact Ho|exact Hr].
Qed.
Example C79_insert_hyps : is_ok (out RB toy (d5 HB) (ws4 RB)) = true.
Proof. vm_compute. reflexivity. Qed.

(** C80: with one node replaced ([alter]), [get_one] returns another value; with another one replaced it panics.  The proof generated from the altered database does not verify. *)
Theorem C80_refuted :
  ∀ B : backend 2, B = hash_db 2 ∨ B = rocks_db 2 →
  ∃ st lg r M k v, live B toy idc idc st lg r M ∧ no_collision toy lg ∧ M !! k = Some v ∧
    (∃ l nd v' p, let st' := alter B st l nd in v' ≠ v ∧
      out B toy (get_one idc 17 r k) st' = ROk (Some v') ∧
      out B toy (generate_inclusion_proof 17 r k) st' = ROk p ∧
      ∃ er, out B toy (verify_inclusion_proof idc r k v' p) st' = RErr er) ∧
    (∃ l nd, out B toy (get_one idc 17 r k) (alter B st l nd) = RPanic).
Proof.  exact alter_refuted. Qed.
Print Assumptions C80_refuted.

(** C80, checked reads: whatever an altered database answers, a value with a proof that verifies for a root in use is the right one ([C12] extended to histories with removals and failures).  Missing: reads without a proof; false by [C80_refuted]. *)
Theorem C80_checked_partial :
  ∀ (n : nat) (B : backend n) (HB : BackendOk B) (H : list bytes → arr n)
    (V : Type) (enc : V → res bytes) (dec : bytes → res V), 0 < n → codec_ok enc dec →
  ∀ st lg r M (B' : backend n) (st' : b_st B') k v p, live B H enc dec st lg r M →
  no_collision H (lg ++ hlog B' H (verify_inclusion_proof enc r k v p) st') →
  out B' H (verify_inclusion_proof enc r k v p) st' = ROk tt → M !! k = Some v.
Proof. intros n B HB H V enc dec Hn Hc. intros st lg r M B'. exact (tamper_proof Hn B B' H enc dec Hc st lg r M). Qed.
Print Assumptions C80_checked_partial.
Example C80_checked_case : ∀ p, no_collision toy (dlg RB ++ hlog RB toy (verify_inclusion_proof idc (wr2 RB) K1 v2 p) (b_init RB)) →
  out RB toy (verify_inclusion_proof idc (wr2 RB) K1 v2 p) (b_init RB) ≠ ROk tt.
Proof.
  intros p Hc Ho.
  assert (live RB toy idc idc (ws2 RB) (dlg RB) (wr2 RB) W2) as Hl by (apply damaged_live; vm_compute; reflexivity).
  pose proof (C80_checked_partial 2 RB _ toy _ idc idc (Nat.lt_0_succ 1) idc_ok _ _ _ _ RB (b_init RB) K1 v2 p Hl Hc Ho) as HM. vm_compute in HM. discriminate HM.
Qed.
Example C80_checked_hyps : let p := the_root (out RB toy (generate_inclusion_proof 17 (wr2 RB) K1) (ws2 RB)) [] in
  no_collision toy (dlg RB ++ hlog RB toy (verify_inclusion_proof idc (wr2 RB) K1 v1 p) (b_init RB)) ∧
  out RB toy (verify_inclusion_proof idc (wr2 RB) K1 v1 p) (b_init RB) = ROk tt.
Proof. split; [nc|vm_compute; reflexivity]. Qed.

(** C46, after any history, with removals of anything and lost nodes.  [c] is any call with any arguments; [exec] drops its result. *)
Theorem C46_any_history :
  ∀ (n : nat) (B : backend n) (HB : BackendOk B) (H : list bytes → arr n)
    (V : Type) (enc : V → res bytes) (dec : bytes → res V), 0 < n → codec_ok enc dec →
  ∀ st lg c, wild B H enc dec st lg → no_collision H (lg ++ hlog B H (exec enc dec c) st) →
  out B H (exec enc dec c) st = ROk tt ∨ ∃ er, out B H (exec enc dec c) st = RErr er.
Proof. intros n B HB H V enc dec Hn Hc. exact (wild_no_panic Hn B H enc dec Hc). Qed.
Print Assumptions C46_any_history.
Example C46_any_history_case : ∃ er, out RB toy (exec idc idc (CInsert 17 (Some (wr2 HB)) [K3; KX] [v1; v2])) (ws4 RB) = RErr er.
Proof.
  destruct (C46_any_history 2 RB _ toy _ idc idc (Nat.lt_0_succ 1) idc_ok _ _ (CInsert 17 (Some (wr2 HB)) [K3; KX] [v1; v2]) damaged ltac:(nc)) as [Ho|He]; [|exact He].
  vm_compute in Ho. discriminate Ho.
Qed.

(** C46, if the [i]-th database operation of the call fails. *)
Theorem C46_any_history_fault :
  ∀ (n : nat) (B : backend n) (HB : BackendOk B) (H : list bytes → arr n)
    (V : Type) (enc : V → res bytes) (dec : bytes → res V), 0 < n → codec_ok enc dec →
  ∀ st lg c i, wild B H enc dec st lg → no_collision H (lg ++ hlog B H (exec enc dec c) st) →
  (run_fault B H i (exec enc dec c) st).1 = ROk tt ∨ ∃ er, (run_fault B H i (exec enc dec c) st).1 = RErr er.
Proof. intros n B HB H V enc dec Hn Hc. exact (wild_fault_no_panic Hn B H enc dec Hc). Qed.
Print Assumptions C46_any_history_fault.
Example C46_any_history_fault_case : ∃ er, (run_fault RB toy 3 (exec idc idc (CInsert 17 (Some (wr2 HB)) [K4] [v4])) (ws4 RB)).1 = RErr er.
Proof.
  destruct (C46_any_history_fault 2 RB _ toy _ idc idc (Nat.lt_0_succ 1) idc_ok _ _ (CInsert 17 (Some (wr2 HB)) [K4] [v4]) 3 damaged ltac:(nc)) as [Ho|He]; [|exact He].
  vm_compute in Ho. discriminate Ho.
Qed.
