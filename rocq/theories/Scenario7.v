(** * A tree with FxHash
    Keys of 32 bytes, values of 16 bytes, the identity codec, the hasher of the
    feature [fxhash]; [insert(None, [F1, F2], [w1, w2])] on each backend, then
    [insert_one(None, F1, w1')] with the second value that [fx_forge] computes. *)
From Coq Require Import Strings.Byte NArith.
From stdpp Require Import prelude countable gmap sorting strings.
From Verif Require Import Model Bits Spec Util Logic Claims Live Scenario Fx Forge Sea.

Local Open Scope nat_scope.

Definition F1 : arr 32 := mkarr 32 (repeat x11 32).
Definition F2 : arr 32 := mkarr 32 (repeat x91 32).
Definition w1 : bytes := repeat x61 16.
Definition w2 : bytes := repeat x62 20.
Definition fx_state (k : bytes) : N := foldl (λ h b, fx_write (S (length b)) h b) 0%N [[x64]; k].
(** The first word of [w1] with its lowest bit changed, and what makes up for it. *)
Definition w1' : bytes := fx_forge (fx_state F1) (N.lxor (word_of (take 8 w1)) 1) w1.

Section Scenario.
  Context (B : backend 32).
  Definition fi : prog 32 (arr 32) := insert idc 257 None [F1; F2] [w1; w2].
  Definition fs : b_st B := fin B (fx 32) fi (b_init B).
  Definition fr : arr 32 := the_root (out B (fx 32) fi (b_init B)) F1.
  Definition flg : list (list bytes) := [] ++ hlog B (fx 32) fi (b_init B).
  Definition fM : gmap (arr 32) bytes := updated ∅ [F1; F2] [w1; w2].

  Lemma f_live : out B (fx 32) fi (b_init B) = ROk fr → live B (fx 32) idc idc fs flg fr fM.
  Proof.
    intros Hr. exists [(fr, fM)]. split; [left|left].
    eapply (hist_insert B (fx 32) idc idc (b_init B) [] [] 257 None ∅ [F1; F2] [w1; w2] fr); [constructor|done| |exact Hr].
    by apply hazard_b_mild.
  Qed.
End Scenario.
Lemma w1'_eq : w1' = [x60; x61; x61; x61; x61; x61; x61; x61; xdb; xb6; x23; x0d; x86; xab; x09; x11].
Proof. vm_compute. reflexivity. Qed.
Lemma w1'_same : fx 32 (data_in F1 w1) = fx 32 (data_in F1 w1').
Proof. apply arr_inj. vm_compute. reflexivity. Qed.
Lemma hash_f : live (hash_db 32) (fx 32) idc idc (fs (hash_db 32)) (flg (hash_db 32)) (fr (hash_db 32)) fM.
Proof. apply f_live. vm_compute. reflexivity. Qed.
Lemma rocks_f : live (rocks_db 32) (fx 32) idc idc (fs (rocks_db 32)) (flg (rocks_db 32)) (fr (rocks_db 32)) fM.
Proof. apply f_live. vm_compute. reflexivity. Qed.
Lemma hash_f_nc : no_collision (fx 32) (flg (hash_db 32)).
Proof. apply no_collision_b_sound. vm_compute. reflexivity. Qed.
Lemma rocks_f_nc : no_collision (fx 32) (flg (rocks_db 32)).
Proof. apply no_collision_b_sound. vm_compute. reflexivity. Qed.
Lemma fx_refuted : ∃ (st : b_st (hash_db 32)) (lg : list (list bytes)) (r k : arr 32) (M : gmap (arr 32) bytes) (v v' : bytes) (r' : arr 32),
  live (hash_db 32) (fx 32) idc idc st lg r M ∧ no_collision (fx 32) lg ∧
  out (hash_db 32) (fx 32) (get_one idc 257 r k) st = ROk (Some v) ∧
  out (hash_db 32) (fx 32) (insert_one idc 257 None k v') st = ROk r' ∧ v ≠ v' ∧
  out (hash_db 32) (fx 32) (get_one idc 257 r k) (fin (hash_db 32) (fx 32) (insert_one idc 257 None k v') st) = ROk (Some v').
Proof.
  exists (fs (hash_db 32)), (flg (hash_db 32)), (fr (hash_db 32)), F1, fM, w1, w1'. eexists.
  split; [exact hash_f|]. split; [exact hash_f_nc|]. split; [vm_compute; reflexivity|]. split; [vm_compute; reflexivity|].
  split; [rewrite w1'_eq; discriminate|]. vm_compute. reflexivity.
Qed.

(** ** The same with SeaHash *)
Definition x1 : bytes := repeat x61 48.
Definition x2 : bytes := repeat x62 50.
Definition x1' : bytes := let s := foldl sea_write sea_new [[x64]; (F1 : bytes)] in
  sea_forge s (N.lxor (word_of (take 8 (drop (8 - length (sea_tail s)) x1))) 1) x1.
Section SeaScenario.
  Context (B : backend 32).
  Definition ui : prog 32 (arr 32) := insert idc 257 None [F1; F2] [x1; x2].
  Definition us : b_st B := fin B (sea 32) ui (b_init B).
  Definition ur : arr 32 := the_root (out B (sea 32) ui (b_init B)) F1.
  Definition ulg : list (list bytes) := [] ++ hlog B (sea 32) ui (b_init B).
  Definition uM : gmap (arr 32) bytes := updated ∅ [F1; F2] [x1; x2].

  Lemma u_live : out B (sea 32) ui (b_init B) = ROk ur → live B (sea 32) idc idc us ulg ur uM.
  Proof.
    intros Hr. exists [(ur, uM)]. split; [left|left].
    eapply (hist_insert B (sea 32) idc idc (b_init B) [] [] 257 None ∅ [F1; F2] [x1; x2] ur); [constructor|done| |exact Hr].
    by apply hazard_b_mild.
  Qed.
End SeaScenario.
Lemma hash_u : live (hash_db 32) (sea 32) idc idc (us (hash_db 32)) (ulg (hash_db 32)) (ur (hash_db 32)) uM.
Proof. apply u_live. vm_compute. reflexivity. Qed.
Lemma hash_u_nc : no_collision (sea 32) (ulg (hash_db 32)).
Proof. apply no_collision_b_sound. vm_compute. reflexivity. Qed.
Lemma sea_refuted : ∃ (st : b_st (hash_db 32)) (lg : list (list bytes)) (r k : arr 32) (M : gmap (arr 32) bytes) (v v' : bytes) (r' : arr 32),
  live (hash_db 32) (sea 32) idc idc st lg r M ∧ no_collision (sea 32) lg ∧
  out (hash_db 32) (sea 32) (get_one idc 257 r k) st = ROk (Some v) ∧
  out (hash_db 32) (sea 32) (insert_one idc 257 None k v') st = ROk r' ∧ v ≠ v' ∧
  out (hash_db 32) (sea 32) (get_one idc 257 r k) (fin (hash_db 32) (sea 32) (insert_one idc 257 None k v') st) = ROk (Some v').
Proof.
  exists (us (hash_db 32)), (ulg (hash_db 32)), (ur (hash_db 32)), F1, uM, x1, x1'. eexists.
  split; [exact hash_u|]. split; [exact hash_u_nc|]. split; [vm_compute; reflexivity|]. split; [vm_compute; reflexivity|].
  split; [vm_compute; discriminate|]. vm_compute. reflexivity.
Qed.

(** The pairs of [fM], in another order. *)
Lemma f_pairs : NoDup [(F2, w2); (F1, w1)] ∧ ∀ k e, (k, e) ∈ [(F2, w2); (F1, w1)] ↔ ∃ v, fM !! k = Some v ∧ idc v = Ok e.
Proof.
  assert (F1 ≠ F2) as Hne by (intros He; apply (f_equal arr_list) in He; vm_compute in He; discriminate).
  split.
  - apply NoDup_cons; split; [|apply NoDup_singleton].
    by intros Hin%elem_of_list_singleton.
  - intros k e. unfold fM, updated. rewrite (right_id_L ∅ (∪)).
    assert (NoDup (zip [F1; F2] [w1; w2]).*1) as Hnd.
    { apply NoDup_cons; split; [|apply NoDup_singleton]. by intros Hin%elem_of_list_singleton. }
    assert ((k, e) ∈ [(F2, w2); (F1, w1)] ↔ (k, e) ∈ zip [F1; F2] [w1; w2]) as Hperm.
    { cbn. rewrite !elem_of_cons, elem_of_nil. tauto. }
    rewrite Hperm. split.
    + intros Hin. exists e. split; [|done]. by apply elem_of_list_to_map.
    + intros (v & Hv & [= ->]). by apply elem_of_list_to_map in Hv.
Qed.
Lemma fx_pieces : ∃ (k : arr 32) (v : bytes), fx 32 (data_in k v) ≠ fx 32 [concat (data_in k v)].
Proof. exists F1, w1. intros He. apply (f_equal arr_list) in He. vm_compute in He. discriminate. Qed.
