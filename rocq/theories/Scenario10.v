(** * A database with a mixed history
    Used in the [Example]s of PropsWritten.v.  [insert(None, [K2, K1], [v2, v1])]
    returns [r1]; in [insert(Some(r1), [KX, K3], [v5, v3])] the fourth database
    operation fails; [remove(r1)] is cut short after one step; the data node of
    [K2] is lost. *)
From Coq Require Import Strings.Byte NArith.
From stdpp Require Import prelude countable gmap sorting strings.
From Verif Require Import Model Bits Spec Logic Safe Claims Live Machine Weak Wild Written Scenario Refuted.

Local Open Scope nat_scope.

Section Scenario10.
  Context (B : backend 2).
  Definition c1 : call 2 bytes := CInsert 17 None [K2; K1] [v2; v1].
  Definition c2 : call 2 bytes := CInsert 17 (Some (r1 B)) [KX; K3] [v5; v3].
  Definition x1 : b_st B := fin B toy (exec idc idc c1) (b_init B).
  Definition x2 : b_st B := (run_fault B toy 3 (exec idc idc c2) x1).2.
  Definition x3 : b_st B := List.nth 1 (states B toy (remove_prog B x2 (toy (leaf_in K2 (toy (data_in K2 v2))))) x2) x2.
  Definition x4 : b_st B := b_del B x3 (toy (data_in K2 v2)).
  Definition xlg : list (list bytes) := ([] ++ hlog B toy (exec idc idc c1) (b_init B)) ++ hlog B toy (exec idc idc c2) x1.
  Definition xws : list (arr 2 * bytes) := ([] ++ gives c1) ++ gives c2.
  Lemma mixed_wrote : wrote B toy idc idc x4 xlg xws.
  Proof.
    apply wrote_lose. apply (wrote_remove B toy idc idc x2 xlg xws (toy (leaf_in K2 (toy (data_in K2 v2))))).
    - unfold xlg, xws. apply (wrote_fault B toy idc idc x1 _ _ c2 3).
      apply wrote_call; [apply wrote_init|]. apply run_in_states.
    - unfold x3. generalize (remove_prog B x2 (toy (leaf_in K2 (toy (data_in K2 v2))))). intros p.
      destruct (List.nth_in_or_default 1 (states B toy p x2) x2) as [Hin|Hx].
      + by apply elem_of_list_In in Hin.
      + rewrite Hx. destruct p; left.
  Qed.
End Scenario10.
Lemma mixed_nc_hash : no_collision toy (xlg (hash_db 2)).
Proof. nc. Qed.
Lemma mixed_nc_rocks : no_collision toy (xlg (rocks_db 2)).
Proof. nc. Qed.
Lemma not_given : (K1, v2) ∉ xws (hash_db 2).
Proof.
  intros Hin. assert (bool_decide ((K1, v2) ∈ xws (hash_db 2)) = true) as Ht by (by apply bool_decide_eq_true_2).
  revert Ht. vm_compute. discriminate.
Qed.
