(** * Calls that spare the roots in use
    Statements only; see PropsHist.v for the conventions.  [whist], [spares] and [serves] are defined
    in Spec.v. *)
From Coq Require Import Strings.Byte NArith.
From stdpp Require Import prelude countable gmap sorting strings.
From Verif Require Import Model Bits Spec Logic Safe Claims Live Regrow Weak Scenario Scenario4 Refuted Scenario5.

Local Open Scope nat_scope.

Notation HB := (hash_db 2). Notation RB := (rocks_db 2).

(** C67: at every point of any call that spares the roots in use, they are served. *)
Theorem C67_spared :
  ∀ (n : nat) (B : backend n) (HB : BackendOk B) (H : list bytes → arr n)
    (V : Type) (enc : V → res bytes) (dec : bytes → res V), 0 < n → codec_ok enc dec →
  ∀ st lg hs c st' r M, whist B H enc dec st lg hs →
  no_collision H (lg ++ hlog B H (exec enc dec c) st) → spares B H enc dec st hs c →
  st' ∈ states B H (exec enc dec c) st → (r, M) ∈ hs →
  serves B H enc dec st' r M ∧ serves B H enc dec (b_drop B st') r M.
Proof. intros n B HB H V enc dec Hn Hc. exact (weak_any Hn B H enc dec Hc). Qed.
Print Assumptions C67_spared.
(** The call is the batch of [C03_refuted], whose root has lost a key. *)
Example C67_spared_case : serves HB toy idc idc (zs3 HB) (z2 HB) Z2 ∧ serves RB toy idc idc (b_drop RB (zs3 RB)) (p1 RB) N1.
Proof.
  split.
  - eapply (C67_spared 2 HB _ toy _ idc idc (Nat.lt_0_succ 1) idc_ok _ _ _ _ _ _ _ hash_scenario5 hash_nc5 hash_spares5 (zs3_state HB)). left.
  - eapply (C67_spared 2 RB _ toy _ idc idc (Nat.lt_0_succ 1) idc_ok _ _ _ _ _ _ _ rocks_scenario5 rocks_nc5 rocks_spares5 (zs3_state RB)). right; left.
Qed.
Example C67_lost_key : ∃ r, out HB toy (insert idc 17 (Some (p1 HB)) [K3; KX; KA] [v3; v4; v5]) (zs2 HB) = ROk r ∧
  out HB toy (get_one idc 17 r K60) (zs3 HB) = ROk None ∧ Z2 !! K60 = Some v5.
Proof.
  destruct hash_lost5 as (_ & r & H1 & H2). exists r. split; [exact H1|]. split; [exact H2|vm_compute; reflexivity].
Qed.

(** C67: nor does a later removal of one root in use damage the others. *)
Theorem C67_then_remove :
  ∀ (n : nat) (B : backend n) (HB : BackendOk B) (H : list bytes → arr n)
    (V : Type) (enc : V → res bytes) (dec : bytes → res V), 0 < n → codec_ok enc dec →
  ∀ st lg hs c st' r M hs', whist B H enc dec st lg hs →
  no_collision H (lg ++ hlog B H (exec enc dec c) st) → spares B H enc dec st hs c →
  st' ∈ states B H (exec enc dec c) st → hs ≡ₚ (r, M) :: hs' →
  ∀ st'' r' M', st'' ∈ states B H (remove_prog B st' r) st' → (r', M') ∈ hs' →
    serves B H enc dec st'' r' M' ∧ serves B H enc dec (b_drop B st'') r' M'.
Proof. intros n B HB H V enc dec Hn Hc. exact (weak_any_remove Hn B H enc dec Hc). Qed.
Print Assumptions C67_then_remove.
Example C67_then_remove_case : serves HB toy idc idc (zs4 HB) (z2 HB) Z2.
Proof.
  eapply (C67_then_remove 2 HB _ toy _ idc idc (Nat.lt_0_succ 1) idc_ok _ _ _ _ _ (p1 HB) N1 [(z2 HB, Z2)] hash_scenario5 hash_nc5 hash_spares5
    (zs3_state HB) (Permutation_swap _ _ _) (zs4 HB) _ _ (zs4_state HB)). left.
Qed.

(** C67: a call spares all roots if no branch it makes is in the database. *)
Theorem C67_new :
  ∀ (n : nat) (B : backend n) (HB : BackendOk B) (H : list bytes → arr n)
    (V : Type) (enc : V → res bytes) (dec : bytes → res V), 0 < n → codec_ok enc dec →
  ∀ st hs c,
  (∀ z o : arr n, branch_in z o ∈ hlog B H (exec enc dec c) st → b_vis B st !! H (branch_in z o) = None) →
  spares B H enc dec st hs c.
Proof. intros n B HB H V enc dec Hn Hc. exact (spares_new B H enc dec). Qed.
Print Assumptions C67_new.
Example C67_new_case : spares HB toy idc idc (zs2 HB) (zhs2 HB) (CInsert 17 None [K4; KA] [v1; v1]).
Proof.
  apply (C67_new 2 HB _ toy _ idc idc (Nat.lt_0_succ 1) idc_ok). intros z o Hzo.
  assert (forallb (λ x, bool_decide (x = data_in KA v1) || bool_decide (x = data_in K4 v1) ||
            bool_decide (b_vis HB (zs2 HB) !! toy x = None)) (hlog HB toy (exec idc idc (CInsert 17 None [K4; KA] [v1; v1])) (zs2 HB)) = true)
    as Hb by (vm_compute; reflexivity).
  rewrite forallb_forall in Hb. apply elem_of_list_In, Hb, orb_true_iff in Hzo as [Hzo|Hzo].
  - apply orb_true_iff in Hzo as [Hzo|Hzo]; apply bool_decide_eq_true in Hzo; discriminate Hzo.
  - by apply bool_decide_eq_true in Hzo.
Qed.

(** C67: or if no node is counted more than once, as before the first insertion into a root. *)
Theorem C67_once :
  ∀ (n : nat) (B : backend n) (HB : BackendOk B) (H : list bytes → arr n)
    (V : Type) (enc : V → res bytes) (dec : bytes → res V), 0 < n → codec_ok enc dec →
  ∀ st hs c, (∀ x nd, b_vis B st !! x = Some nd → refs nd ≤ 1) → spares B H enc dec st hs c.
Proof. intros n B HB H V enc dec Hn Hc. exact (spares_once B H enc dec). Qed.
Print Assumptions C67_once.
Example C67_once_case : spares HB toy idc idc (t1 HB) [(p1 HB, N1)] (zc3 HB).
Proof.
  apply (C67_once 2 HB _ toy _ idc idc (Nat.lt_0_succ 1) idc_ok). intros x nd Hx.
  assert (map_Forall (λ _ nd, refs nd ≤ 1) (b_vis HB (t1 HB))) as Hm by (apply (bool_decide_eq_true_1 _); vm_compute; reflexivity).
  by apply (Hm x nd).
Qed.
