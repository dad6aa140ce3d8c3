(** * Tries in a database: locations, contents, representation *)
From Coq Require Import Strings.Byte NArith.
From stdpp Require Import prelude countable gmap sorting strings.
From Verif Require Import Model Bits Util Trie.

Local Open Scope nat_scope.

(** What a stored node may be: the root node of a trie, or the data node of a
    key/value pair. *)
Inductive obj (n : nat) : Type :=
| OT (t : trie n)
| OD (k : arr n) (e : bytes).
Arguments OT {n} t.
Arguments OD {n} k e.

Notation db n := (gmap (arr n) (node n)).

(** Content of a location, ignoring the reference count. *)
Definition has {n} (m : db n) (l : arr n) (v : variant n) : Prop := var <$> m !! l = Some v.
(** Content inclusion. *)
Definition cle {n} (m m' : db n) : Prop := ∀ l v, has m l v → has m' l v.

Section Store.
  Context {n : nat} (H : list bytes → arr n).
  Implicit Types (t : trie n) (k : arr n) (e : bytes) (o : obj n) (m : db n).

  Definition dloc k e : arr n := H (data_in k e).
  Definition lloc k e : arr n := H (leaf_in k (dloc k e)).
  Fixpoint troot t : arr n :=
    match t with
    | TLeaf k e => lloc k e
    | TNode l r => H (branch_in (troot l) (troot r))
    end.
  (** The strings hashed to compute the locations of a trie. *)
  Fixpoint tpre t : list (list bytes) :=
    match t with
    | TLeaf k e => [data_in k e; leaf_in k (dloc k e)]
    | TNode l r => branch_in (troot l) (troot r) :: tpre l ++ tpre r
    end.
  Definition tvar t : variant n :=
    match t with
    | TLeaf k e => VLeaf k (dloc k e)
    | TNode l r => VBranch (tsize l + tsize r) (troot l) (troot r) (tsplit l r) (tmin l)
    end.
  (** All nodes of a trie are in the database, with the right contents. *)
  Fixpoint stored m t : Prop :=
    match t with
    | TLeaf k e => has m (lloc k e) (tvar t) ∧ has m (dloc k e) (VData e)
    | TNode l r => has m (troot t) (tvar t) ∧ stored m l ∧ stored m r
    end.

  Definition oloc o : arr n := match o with OT t => troot t | OD k e => dloc k e end.
  Definition ovar o : variant n := match o with OT t => tvar t | OD k e => VData e end.
  Definition opre o : list (list bytes) := match o with OT t => tpre t | OD k e => [data_in k e] end.
  Definition opwf o : Prop := match o with OT t => tpwf t | OD _ _ => True end.
  Definition ostored m o : Prop :=
    match o with OT t => stored m t | OD k e => has m (dloc k e) (VData e) end.
  (** Everything below [o] is stored. *)
  Definition obelow m o : Prop :=
    match o with
    | OT (TLeaf k e) => has m (dloc k e) (VData e)
    | OT (TNode l r) => stored m l ∧ stored m r
    | OD _ _ => True
    end.

  Lemma ostored_iff m o : ostored m o ↔ has m (oloc o) (ovar o) ∧ obelow m o.
  Proof. destruct o as [[]|]; simpl; naive_solver. Qed.
  Lemma stored_root m t : stored m t → has m (troot t) (tvar t).
  Proof. destruct t; simpl; naive_solver. Qed.

  Lemma cle_refl m : cle m m.
  Proof. by intros ??. Qed.
  Lemma cle_trans m1 m2 m3 : cle m1 m2 → cle m2 m3 → cle m1 m3.
  Proof. intros H1 H2 l v Hl. auto. Qed.
  Lemma stored_mono m m' t : cle m m' → stored m t → stored m' t.
  Proof. intros Hc. induction t; simpl; naive_solver. Qed.
  Lemma ostored_mono m m' o : cle m m' → ostored m o → ostored m' o.
  Proof. intros Hc. destruct o; simpl; [by apply stored_mono|apply Hc]. Qed.
  Lemma obelow_mono m m' o : cle m m' → obelow m o → obelow m' o.
  Proof.
    intros Hc. destruct o as [[]|]; simpl; [apply Hc| |done].
    intros [??]. split; by eapply stored_mono.
  Qed.
  Lemma has_lookup m l v : has m l v ↔ ∃ rf, m !! l = Some (Node rf v).
  Proof.
    unfold has. rewrite fmap_Some. split.
    - intros ([rf v'] & ? & ->). eauto.
    - intros [rf ?]. eauto.
  Qed.
  Lemma has_insert m l nd l' v :
    has (<[l := nd]> m) l' v ↔ (l = l' ∧ var nd = v) ∨ (l ≠ l' ∧ has m l' v).
  Proof.
    unfold has. destruct (decide (l = l')) as [->|].
    - rewrite lookup_insert. simpl. naive_solver.
    - rewrite lookup_insert_ne by done. naive_solver.
  Qed.

  (** Chunk lists determine node identities. *)
  Lemma arr_list_inj (a b : arr n) : arr_list a = arr_list b → a = b.
  Proof. apply arr_inj. Qed.
  Lemma data_in_inj k e k' e' : data_in k e = data_in k' e' → k = k' ∧ e = e'.
  Proof. intros [= H1 H2]. split; [by apply arr_list_inj|done]. Qed.
  Lemma leaf_in_inj k (d : arr n) k' (d' : arr n) : leaf_in k d = leaf_in k' d' → k = k' ∧ d = d'.
  Proof. intros [= H1 H2]. split; by apply arr_list_inj. Qed.
  Lemma branch_in_inj (a b a' b' : arr n) : branch_in a b = branch_in a' b' → a = a' ∧ b = b'.
  Proof. intros [= H1 H2]. split; by apply arr_list_inj. Qed.

  Context (S : list bytes → Prop).
  (** No two strings of [S] collide. *)
  Definition inj_on : Prop := ∀ x y, S x → S y → H x = H y → x = y.

  Definition opre_ok o : Prop := Forall S (opre o).

  Section Inj.
  Context (Hinj : inj_on).

  Lemma troot_inj t1 t2 : Forall S (tpre t1) → Forall S (tpre t2) → troot t1 = troot t2 → t1 = t2.
  Proof.
    revert t2. induction t1 as [k e|l1 IHl r1 IHr]; intros [k2 e2|l2 r2]; simpl; intros H1 H2 Heq.
    - rewrite !Forall_cons in *. destruct H1 as (H1a & H1b & _), H2 as (H2a & H2b & _).
      apply Hinj in Heq; [|done|done]. apply leaf_in_inj in Heq as [-> Heq].
      apply Hinj in Heq; [|done|done]. apply data_in_inj in Heq as [_ ->]. done.
    - rewrite !Forall_cons in *. destruct H1 as (H1a & H1b & _), H2 as (H2a & _).
      apply Hinj in Heq; done.
    - rewrite !Forall_cons in *. destruct H1 as (H1a & _), H2 as (H2a & H2b & _).
      apply Hinj in Heq; done.
    - rewrite !Forall_cons, !Forall_app in *.
      destruct H1 as (H1a & H1b & H1c), H2 as (H2a & H2b & H2c).
      apply Hinj in Heq; [|done|done]. apply branch_in_inj in Heq as [Hl Hr].
      f_equal; auto.
  Qed.
  Lemma troot_dloc t k e : Forall S (tpre t) → S (data_in k e) → troot t ≠ dloc k e.
  Proof.
    intros Ht Hd Heq. unfold dloc in Heq. destruct t as [k' e'|l r]; simpl in *.
    - rewrite !Forall_cons in Ht. destruct Ht as (_ & Hl & _).
      apply Hinj in Heq; done.
    - rewrite !Forall_cons in Ht. destruct Ht as (Hl & _).
      apply Hinj in Heq; done.
  Qed.
  Lemma oloc_inj o1 o2 : opre_ok o1 → opre_ok o2 → oloc o1 = oloc o2 → o1 = o2.
  Proof.
    unfold opre_ok. destruct o1 as [t1|k1 e1], o2 as [t2|k2 e2]; simpl; intros H1 H2 Heq.
    - f_equal. by apply troot_inj.
    - rewrite Forall_singleton in H2. exfalso. by apply (troot_dloc t1 k2 e2).
    - rewrite Forall_singleton in H1. exfalso. by apply (troot_dloc t2 k1 e1).
    - rewrite Forall_singleton in *. apply Hinj in Heq; [|done|done].
      by apply data_in_inj in Heq as [-> ->].
  Qed.

  (** The database only contains nodes of tries whose strings were hashed, and
      with a node everything below it. *)
  Definition proper m : Prop :=
    ∀ l nd, m !! l = Some nd →
      ∃ o, opre_ok o ∧ opwf o ∧ oloc o = l ∧ ovar o = var nd ∧ obelow m o.

  Lemma proper_empty : proper ∅.
  Proof. intros l nd Hl. by rewrite lookup_empty in Hl. Qed.

  Lemma proper_lookup m o nd : proper m → opre_ok o → m !! oloc o = Some nd →
    var nd = ovar o ∧ obelow m o ∧ opwf o.
  Proof.
    intros Hp Ho Hl. destruct (Hp _ _ Hl) as (o' & Ho' & Hw & Hloc & Hv & Hb).
    apply oloc_inj in Hloc; [|done|done]. by subst o'.
  Qed.
  Lemma proper_stored m t nd : proper m → Forall S (tpre t) → m !! troot t = Some nd →
    var nd = tvar t ∧ stored m t ∧ tpwf t.
  Proof.
    intros Hp Ht Hl. destruct (proper_lookup m (OT t) nd Hp Ht Hl) as (Hv & Hb & Hw).
    simpl in *. split_and!; [done| |done]. apply (ostored_iff m (OT t)). split; [|done].
    unfold has. simpl. rewrite Hl. simpl. by rewrite Hv.
  Qed.

  Lemma proper_put_cle m o nd : proper m → opre_ok o → var nd = ovar o →
    cle m (<[oloc o := nd]> m).
  Proof.
    intros Hp Ho Hv l v Hl. apply has_insert.
    destruct (decide (oloc o = l)) as [<-|]; [|by right]. left. split; [done|].
    apply has_lookup in Hl as [rf Hl].
    destruct (proper_lookup m o _ Hp Ho Hl) as (Hv' & _). simpl in Hv'. congruence.
  Qed.
  Lemma proper_put m o nd : proper m → opre_ok o → opwf o → var nd = ovar o → obelow m o →
    proper (<[oloc o := nd]> m).
  Proof.
    intros Hp Ho Hw Hv Hb. pose proof (proper_put_cle m o nd Hp Ho Hv) as Hc.
    intros l nd' [[<- <-]|[Hne Hl]]%lookup_insert_Some.
    - exists o. split_and!; auto. by eapply obelow_mono.
    - destruct (Hp _ _ Hl) as (o' & ?&?&?&?&?). exists o'. split_and!; auto.
      by eapply obelow_mono.
  Qed.
  End Inj.
End Store.
