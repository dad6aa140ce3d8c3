(** * A history with an abandoned batch
    Used in the [Example]s of PropsSpare.v:
    - [insert(None, [K1, K2, K60], [v1, v2, v5])], returning [p1] (Refuted.v),
    - [insert(Some(p1), [K5], [v1])], returning [z2],
    - [insert(Some(p1), [K3, KX, KA], [v3, v4, v5])]: the batch of
      [C03_refuted], which returns a root that has lost [K60]; that root is not
      used,
    - [remove(p1)]. *)
From Coq Require Import Strings.Byte NArith.
From stdpp Require Import prelude countable gmap sorting strings.
From Verif Require Import Model Bits Spec Logic Safe Claims Live Regrow Weak Scenario Scenario4 Refuted.

Local Open Scope nat_scope.

(** [spares], checked by computation. *)
Definition spares_b {n} (m : gmap (arr n) (node n)) (H : list bytes → arr n) (L : list (list bytes)) : bool :=
  forallb (λ x, match x with
    | [b; _; _] => negb (bool_decide (b = [x62])) ||
                   match m !! H x with Some nd => refs nd <=? 1 | None => true end
    | _ => true
    end) L.
Lemma spares_b_sound {n} (B : backend n) H {V} (enc : V → res bytes) (dec : bytes → res V) st hs c :
  spares_b (b_vis B st) H (hlog B H (exec enc dec c) st) = true → spares B H enc dec st hs c.
Proof.
  unfold spares_b. rewrite forallb_forall. intros Hb z o Hzo r M _ _ nd Hnd.
  apply elem_of_list_In, Hb in Hzo. unfold branch_in in *. rewrite Hnd in Hzo.
  rewrite bool_decide_eq_true_2 in Hzo by done. by apply Nat.leb_le in Hzo.
Qed.

Notation HB := (hash_db 2). Notation RB := (rocks_db 2).
Section Scenario5.
  Context (B : backend 2).
  Definition zi2 : prog 2 (arr 2) := insert idc 17 (Some (p1 B)) [K5] [v1].
  Definition z2 : arr 2 := the_root (out B toy zi2 (t1 B)) K1.
  Definition zs2 : b_st B := fin B toy zi2 (t1 B).
  Definition Z2 : gmap (arr 2) bytes := updated N1 [K5] [v1].
  Definition zlg2 : list (list bytes) := ([] ++ hlog B toy j1 (b_init B)) ++ hlog B toy zi2 (t1 B).
  Definition zhs2 : list (arr 2 * gmap (arr 2) bytes) := [(z2, Z2); (p1 B, N1)].
  Definition zc3 : call 2 bytes := CInsert 17 (Some (p1 B)) [K3; KX; KA] [v3; v4; v5].
  Definition zs3 : b_st B := fin B toy (exec idc idc zc3) zs2.
  Definition zlg3 : list (list bytes) := zlg2 ++ hlog B toy (exec idc idc zc3) zs2.
  Definition zs4 : b_st B := fin B toy (remove_prog B zs3 (p1 B)) zs3.
  Lemma scenario5_hist : out B toy j1 (b_init B) = ROk (p1 B) → out B toy zi2 (t1 B) = ROk z2 →
    whist B toy idc idc zs2 zlg2 zhs2.
  Proof.
    intros H1 H2. unfold zs2, zlg2, zhs2, Z2.
    eapply whist_insert with (prev := Some (p1 B)) (M := N1) (D := 17); [|left|apply benign_single| |exact H2].
    - unfold t1, N1. eapply whist_insert with (prev := None); [apply whist_init|done|apply benign_empty| |exact H1].
      intros r M Hin. by apply elem_of_nil in Hin.
    - apply fresh_branches_b_sound. vm_compute. reflexivity.
  Qed.
  Lemma zs3_state : zs3 ∈ states B toy (exec idc idc zc3) zs2.
  Proof. unfold zs3. apply run_in_states. Qed.
  Lemma zs4_state : zs4 ∈ states B toy (remove_prog B zs3 (p1 B)) zs3.
  Proof. unfold zs4. apply run_in_states. Qed.
End Scenario5.
Lemma hash_scenario5 : whist HB toy idc idc (zs2 HB) (zlg2 HB) (zhs2 HB).
Proof. apply scenario5_hist; vm_compute; reflexivity. Qed.
Lemma rocks_scenario5 : whist RB toy idc idc (zs2 RB) (zlg2 RB) (zhs2 RB).
Proof. apply scenario5_hist; vm_compute; reflexivity. Qed.
Lemma hash_spares5 : spares HB toy idc idc (zs2 HB) (zhs2 HB) (zc3 HB).
Proof. apply spares_b_sound. vm_compute. reflexivity. Qed.
Lemma rocks_spares5 : spares RB toy idc idc (zs2 RB) (zhs2 RB) (zc3 RB).
Proof. apply spares_b_sound. vm_compute. reflexivity. Qed.
Lemma hash_nc5 : no_collision toy (zlg3 HB).
Proof. apply no_collision_b_sound. vm_compute. reflexivity. Qed.
Lemma rocks_nc5 : no_collision toy (zlg3 RB).
Proof. apply no_collision_b_sound. vm_compute. reflexivity. Qed.
(** The batch loses a key. *)
Lemma hash_lost5 : out HB toy (exec idc idc (zc3 HB) ≫= λ _, mret tt) (zs2 HB) = ROk tt ∧
  ∃ r, out HB toy (insert idc 17 (Some (p1 HB)) [K3; KX; KA] [v3; v4; v5]) (zs2 HB) = ROk r ∧
    out HB toy (get_one idc 17 r K60) (zs3 HB) = ROk None.
Proof.
  split; [vm_compute; reflexivity|].
  exists (the_root (out HB toy (insert idc 17 (Some (p1 HB)) [K3; KX; KA] [v3; v4; v5]) (zs2 HB)) K1).
  split; vm_compute; reflexivity.
Qed.
