(** * Foreign databases
    Used in the [Example]s of PropsAny.v.  [junk]: the damaged database [ws4] of
    Scenario8.v, in which moreover the data node of [K1] has been replaced by a
    branch.  [host]: a RocksDB database into which all nodes of the hash-map
    database [ws2] were copied, each with the reference count 7, and which has a
    leaf without data at the location [K5] besides. *)
From Coq Require Import Strings.Byte NArith.
From stdpp Require Import prelude countable gmap sorting strings.
From Verif Require Import Model Bits Spec Logic Safe Claims Live Machine Weak Wild Lost Moved Scenario Refuted Scenario8.

Local Open Scope nat_scope.

Section Scenario12.
  Context (B : backend 2).
  Definition forged : b_st B := alter B (ws2 B) (toy (data_in K1 v1)) (Node 1 (VData v2)).
  Definition junk : b_st B := alter B (ws4 B) (toy (data_in K1 v1)) (Node 5 (VBranch 1 K1 K2 3 K3)).
End Scenario12.
Definition host : b_st (rocks_db 2) :=
  Rocks (((λ nd, Node 7 (var nd)) <$> b_vis (hash_db 2) (ws2 (hash_db 2))) ∪ {[K5 := Node 2 (VLeaf K1 K1)]}) [].
Lemma host_away : out (hash_db 2) toy i1 (b_init (hash_db 2)) = ROk (r1 (hash_db 2)) →
  out (hash_db 2) toy (w2 (hash_db 2)) (s1 (hash_db 2)) = ROk (wr2 (hash_db 2)) →
  away (hash_db 2) (rocks_db 2) toy idc idc host ([] ++ dlg (hash_db 2)) [(wr2 (hash_db 2), W2)].
Proof.
  intros H1 H2. apply (away_copy _ _ _ _ _ (b_init (rocks_db 2)) [] [] (ws2 (hash_db 2)));
    [apply away_any|by apply damaged_live| |by intros r M ?%elem_of_nil].
  assert (∀ r, kept (b_vis (hash_db 2) (ws2 (hash_db 2))) (committed host) r) as Hk.
  { intros r x nd _ Hx. exists (Node 7 (var nd)). split; [|done]. unfold host. cbn [committed].
    apply lookup_union_Some_l. by rewrite lookup_fmap, Hx. }
  intros r M _. split; [apply Hk|]. cbn [b_vis b_flush rocks_db committed]. exact (Hk r).
Qed.
