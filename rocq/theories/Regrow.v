(** * Branches two trees have in common *)
From Coq Require Import Strings.Byte NArith.
From stdpp Require Import prelude countable gmap sorting strings.
From Verif Require Import Model Bits Spec Util Trie Store Logic Build Evol Route Insert Update Hist Claims.

Local Open Scope nat_scope.

Section Meet.
  Context {n : nat}.
  Implicit Types (t l r : trie n) (k x : arr n).

  Lemma leaf_subtrie t k (e : bytes) : (k, e) ∈ tleaves t → subtrie (TLeaf k e) t.
  Proof.
    induction t as [k0 e0|l IHl r IHr]; cbn [tleaves].
    - intros [= -> ->]%elem_of_list_singleton. constructor.
    - intros [Hl|Hr]%elem_of_app; [apply sub_l|apply sub_r]; auto.
  Qed.
  (** A subtrie has all keys of the tree that agree with one of its keys up to
      its branch. *)
  Lemma sub_cylinder t l r k x : twf t → subtrie (TNode l r) t → k ∈ tkeys (TNode l r) →
    tsplit l r ≤ klcp x k → tmap (TNode l r) !! x = tmap t !! x.
  Proof.
    intros Ht Hsub Hk Hx. assert (twf (TNode l r)) as Hlr by (by eapply subtrie_twf).
    destruct (tmap t !! x) as [e|] eqn:He.
    - apply tmap_lookup in He; [|done].
      destruct (decide (x ∈ tkeys (TNode l r))) as [Hin|Hni].
      + apply elem_of_tkeys in Hin as [e' Hin].
        apply tmap_lookup; [done|]. apply (subtrie_leaves _ _ _ Hsub) in Hin as Hin'.
        apply tmap_lookup in Hin'; [|done]. apply tmap_lookup in He; [|done]. by assert (e' = e) as -> by congruence.
      + exfalso. assert (x ∈ tkeys t) as Hxt by (apply elem_of_tkeys; eauto).
        pose proof (sub_apart t _ x Ht Hsub Hxt Hni) as Hap. simpl in Hap.
        pose proof (twf_agree l r k Hlr Hk) as Hak.
        pose proof (klcp_ultra x k (tmin l)). lia.
    - apply tmap_lookup_None. intros Hin. apply tmap_lookup_None in He. apply He.
      by eapply subtrie_keys.
  Qed.
  (** The branch at which two keys of a tree part. *)
  Lemma twf_meet t k k' : twf t → k ∈ tkeys t → k' ∈ tkeys t → k' ≠ k →
    ∃ l r, subtrie (TNode l r) t ∧ k ∈ tkeys (TNode l r) ∧ k' ∈ tkeys (TNode l r) ∧ tsplit l r = klcp k' k.
  Proof.
    induction t as [k0 e0|l IHl r IHr]; intros Ht Hk Hk' Hne.
    - apply elem_of_list_singleton in Hk, Hk'. cbn in *. congruence.
    - pose proof Ht as (Hl & Hr & _). pose proof Hk as Hk1. pose proof Hk' as Hk1'.
      rewrite tkeys_node, elem_of_app in Hk1, Hk1'.
      destruct Hk1 as [Hk1|Hk1], Hk1' as [Hk1'|Hk1'].
      + destruct IHl as (l0 & r0 & ? & ? & ? & ?); try done. exists l0, r0. split_and!; try done. by apply sub_l.
      + exists l, r. split_and!; try done; [constructor|].
        destruct (twf_cross l r k k' Ht Hk1 Hk1') as [He _]. by rewrite klcp_sym, He.
      + exists l, r. split_and!; try done; [constructor|].
        destruct (twf_cross l r k' k Ht Hk1' Hk1) as [He _]. done.
      + destruct IHr as (l0 & r0 & ? & ? & ? & ?); try done. exists l0, r0. split_and!; try done. by apply sub_r.
  Qed.
  (** A key of a branch has one on the other side. *)
  Lemma other_side l r k : twf (TNode l r) → k ∈ tkeys (TNode l r) →
    ∃ k', k' ≠ k ∧ k' ∈ tkeys (TNode l r) ∧ klcp k' k = tsplit l r.
  Proof.
    intros Ht. rewrite tkeys_node, elem_of_app. intros [Hk|Hk].
    - destruct (twf_cross l r k (tmin r) Ht Hk (tmin_in r)) as [He Hlt]. exists (tmin r).
      split_and!; [|rewrite elem_of_app; right; apply tmin_in|by rewrite klcp_sym].
      intros <-. by eapply klt_irrefl.
    - destruct (twf_cross l r (tmin l) k Ht (tmin_in l) Hk) as [He Hlt]. exists (tmin l).
      split_and!; [|rewrite elem_of_app; left; apply tmin_in|done].
      intros <-. by eapply klt_irrefl.
  Qed.
End Meet.

Section Regrow.
  Context {n : nat} {V : Type} (enc : V → res bytes) (dec : bytes → res V) (Hcodec : codec_ok enc dec).
  Implicit Types (t l r : trie n) (k x : arr n) (M N : gmap (arr n) V) (ks : list (arr n)) (vs : list V).

  Lemma branch_regrows t t' l r N M' ks vs k v : twf t → twf t' →
    subtrie (TNode l r) t → subtrie (TNode l r) t' → encs enc N (tmap t) → encs enc M' (tmap t') →
    (k, v) ∈ zip ks vs → k ∈ tkeys (TNode l r) → regrows M' N ks vs.
  Proof using Hcodec.
    intros Ht Ht' Hs Hs' HN HM Hkv Hk. assert (twf (TNode l r)) as Hlr by (by eapply subtrie_twf).
    destruct (other_side l r k Hlr Hk) as (k' & Hne & Hk' & He).
    exists k, v, k'. split_and!; try done.
    - apply (encs_has enc N (tmap t) k' HN). apply tmap_has. by eapply subtrie_keys.
    - intros x Hx. rewrite He in Hx.
      pose proof (encs_dec enc dec Hcodec _ _ x HN) as H1. pose proof (encs_dec enc dec Hcodec _ _ x HM) as H2.
      rewrite <- (sub_cylinder t l r k x) in H1 by done.
      rewrite <- (sub_cylinder t' l r k x) in H2 by done.
      destruct (tmap (TNode l r) !! x); naive_solver congruence.
  Qed.
  Lemma regrows_branch t t' N M' ks vs : twf t → twf t' → encs enc N (tmap t) → encs enc M' (tmap t') →
    (∀ k v, (k, v) ∈ zip ks vs → is_Some (N !! k)) → regrows M' N ks vs →
    ∃ l r k v, subtrie (TNode l r) t ∧ subtrie (TNode l r) t' ∧ (k, v) ∈ zip ks vs ∧ k ∈ tkeys (TNode l r).
  Proof using.
    intros Ht Ht' HN HM Hin (k & v & k' & Hkv & Hne & Hk' & Hag).
    assert (∀ x, klcp k' k ≤ klcp x k → tmap t' !! x = tmap t !! x) as Hag'.
    { intros x Hx. specialize (Hag x Hx). specialize (HN x). specialize (HM x). rewrite Hag in HM.
      destruct HN as [w e He|]; inversion HM; subst; congruence. }
    assert (k ∈ tkeys t ∧ k' ∈ tkeys t) as [Hkt Hkt'].
    { split; apply tmap_has, (encs_has enc N); try done. by eapply Hin. }
    assert (klcp k' k ≤ klcp k k) as Hkk by (rewrite klcp_refl; apply klcp_le).
    assert (k ∈ tkeys t' ∧ k' ∈ tkeys t') as [Hku Hku'].
    { split; apply tmap_has; unfold has_key; rewrite Hag' by done; by apply tmap_has. }
    destruct (twf_meet t k k' Ht Hkt Hkt' Hne) as (l & r & Hs & Hkl & _ & Hsp).
    destruct (twf_meet t' k k' Ht' Hku Hku' Hne) as (l' & r' & Hs' & Hkl' & _ & Hsp').
    exists l, r, k, v. split_and!; try done.
    assert (twf (TNode l r)) as Hlr by (by eapply subtrie_twf).
    assert (twf (TNode l' r')) as Hlr' by (by eapply subtrie_twf).
    assert (TNode l r = TNode l' r') as ->; [|done].
    apply twf_map_inj; [done|done|]. apply map_eq. intros x.
    assert (∀ l r, twf (TNode l r) → k ∈ tkeys (TNode l r) → klcp x k < tsplit l r → tmap (TNode l r) !! x = None) as Hout.
    { clear. intros l r Hlr Hk Hlt. apply tmap_lookup_None. intros Hx.
      pose proof (twf_agree l r x Hlr Hx). pose proof (twf_agree l r k Hlr Hk).
      pose proof (klcp_ultra x (tmin l) k) as Hu. rewrite (klcp_sym (tmin l) k) in Hu. lia. }
    destruct (decide (klcp k' k ≤ klcp x k)) as [Hle|Hgt].
    - rewrite (sub_cylinder t l r k x), (sub_cylinder t' l' r' k x) by (try done; lia). by rewrite Hag'.
    - rewrite (Hout l r), (Hout l' r') by (try done; lia). done.
  Qed.

  Lemma fresh_pairs_branches (hs : list (arr n * gmap (arr n) V)) M ks vs :
    fresh_pairs hs ks vs → fresh_branches hs M ks vs.
  Proof using.
    intros Hf r M' Hin (k & v & k' & Hkv & _ & _ & Hag).
    specialize (Hag k ltac:(rewrite klcp_refl; apply klcp_le)).
    assert (∃ v', updated M ks vs !! k = Some v' ∧ (k, v') ∈ zip ks vs) as (v' & He & Hkv').
    { unfold updated. assert (is_Some (list_to_map (M := gmap (arr n) V) (zip ks vs) !! k)) as [v' Hv'].
      { apply not_eq_None_Some. rewrite <- not_elem_of_list_to_map. intros Hni. apply Hni.
        apply elem_of_list_fmap. by exists (k, v). }
      exists v'. split; [by apply lookup_union_Some_l|]. by apply elem_of_list_to_map_2. }
    apply (Hf r M' k v' Hin Hkv'). congruence.
  Qed.
End Regrow.
