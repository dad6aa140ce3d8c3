(** * Concrete data for the exact answers of [get] and [insert]
    The databases of [C05_refuted] and [C03_refuted] (Refuted.v). *)
From Coq Require Import Strings.Byte NArith.
From stdpp Require Import prelude countable gmap sorting strings.
From Verif Require Import Model Bits Spec Util Logic Claims Live Scenario Refuted.

Local Open Scope nat_scope.

Fixpoint sorted_b {A} (le : A → A → bool) (l : list A) : bool :=
  match l with [] => true | x :: l => forallb (le x) l && sorted_b le l end.
Lemma sorted_b_sound {A} (R : A → A → Prop) (le : A → A → bool) l :
  (∀ a b, le a b = true → R a b) → sorted_b le l = true → StronglySorted R l.
Proof.
  intros Hle. induction l as [|x l IH]; [constructor|]. cbn. intros [Hx Hl]%andb_prop. constructor; [auto|].
  apply Forall_forall. intros y Hy. apply Hle. eapply forallb_forall in Hx; [done|]. by apply elem_of_list_In.
Qed.
Lemma sorted_le (ks : list (arr 2)) : sorted_b arr_leb ks = true → StronglySorted arr_le ks.
Proof. by apply sorted_b_sound. Qed.
Definition arr_ltb (a b : arr 2) : bool := match arr_cmp a b with Lt => true | _ => false end.
Lemma sorted_lt (ks : list (arr 2)) : sorted_b arr_ltb ks = true → StronglySorted klt ks.
Proof. apply sorted_b_sound. intros a b. unfold arr_ltb, klt. by destruct (arr_cmp a b). Qed.

Lemma map_pairs {n} (ks : list (arr n)) (vs : list bytes) : NoDup (zip ks vs).*1 →
  ∀ k e, (k, e) ∈ zip ks vs ↔ ∃ v, updated ∅ ks vs !! k = Some v ∧ idc v = Ok e.
Proof.
  intros Hnd k e. unfold updated. rewrite (right_id_L ∅ (∪)). split.
  - intros Hin. exists e. split; [|done]. by apply elem_of_list_to_map.
  - intros (v & Hv & [= ->]). by apply elem_of_list_to_map in Hv.
Qed.

Lemma keys1 : NoDup [K2; K1] ∧ ∀ k, k ∈ [K2; K1] ↔ is_Some (M1 !! k).
Proof.
  assert (NoDup [K2; K1]) as Hnd by nd. split; [done|]. intros k. split.
  - intros Hk. assert (∃ e, (k, e) ∈ zip [K2; K1] [v2; v1]) as [e He].
    { apply elem_of_cons in Hk as [->|Hk]; [exists v2; left|]. apply elem_of_list_singleton in Hk as ->. exists v1. right. left. }
    apply (map_pairs [K2; K1] [v2; v1]) in He as (v & Hv & _); [by exists v|exact Hnd].
  - intros [v Hv]. assert ((k, v) ∈ zip [K2; K1] [v2; v1]) as Hp by (apply (map_pairs [K2; K1] [v2; v1] Hnd); by exists v).
    apply elem_of_cons in Hp as [Hin|Hin].
    + injection Hin as -> _. left.
    + apply elem_of_list_singleton in Hin. injection Hin as -> _. right. left.
Qed.
Lemma pairs1 : StronglySorted klt (zip [K1; K2; K60] [v1; v2; v5]).*1 ∧
  ∀ k e, (k, e) ∈ zip [K1; K2; K60] [v1; v2; v5] ↔ ∃ v, N1 !! k = Some v ∧ idc v = Ok e.
Proof. split; [apply sorted_lt; vm_compute; reflexivity|]. apply map_pairs. cbn. nd. Qed.

Lemma hash_live1 : live (hash_db 2) toy idc idc (s1 (hash_db 2)) (lg1 (hash_db 2)) (r1 (hash_db 2)) M1.
Proof. exists (hs1 (hash_db 2)). split; [left; apply first_hist; vm_compute; reflexivity|left]. Qed.
Lemma hash_live1_nc : no_collision toy (lg1 (hash_db 2)).
Proof. nc. Qed.
Lemma rocks_live1 : live (rocks_db 2) toy idc idc (s3 (rocks_db 2)) (lg3 (rocks_db 2)) (r1 (rocks_db 2)) M1.
Proof. exists (hs2 (rocks_db 2)). split; [left; apply rocks_scenario|right; left]. Qed.
Lemma rocks_hist2 : hist (rocks_db 2) toy idc idc (t1 (rocks_db 2)) ([] ++ hlog (rocks_db 2) toy j1 (b_init (rocks_db 2))) [(p1 (rocks_db 2), N1)].
Proof. apply second_hist. vm_compute. reflexivity. Qed.
Lemma perm3 {A} (a b c : A) : [b; c; a] ≡ₚ [a; b; c].
Proof. exact (Permutation_app_comm [b; c] [a]). Qed.
