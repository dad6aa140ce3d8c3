(** * The stored branches of a live tree *)
From Coq Require Import Strings.Byte NArith.
From stdpp Require Import prelude countable gmap sorting strings.
From Verif Require Import Model Bits Spec Util Trie Store Logic Build Evol Route Insert Update Safe Hist RefCount RcInsert Claims Live.

Local Open Scope nat_scope.

Section Shape.
  Context {n : nat} (H : list bytes → arr n).
  Implicit Types (t l r u : trie n) (k : arr n) (m : db n).

  Lemma keys_at_stored m t : stored H m t → keys_at m (troot H t) (tkeys t).
  Proof.
    induction t as [k e|l IHl r IHr]; cbn [stored].
    - intros [Hl _]. apply has_lookup in Hl as [rf Hl]. by eapply keys_leaf.
    - intros (Hl & H1 & H2). apply has_lookup in Hl as [rf Hl]. rewrite tkeys_node.
      eapply keys_branch; [exact Hl|auto|auto].
  Qed.
  Lemma keys_at_unique m x ks ks' : keys_at m x ks → keys_at m x ks' → ks = ks'.
  Proof.
    intros H1. revert ks'. induction H1 as [x rf k d Hx|x rf c z o si bk kz ko Hx _ IHz _ IHo]; intros ks' H2;
      inversion H2; subst; simplify_eq; [done|]. f_equal; auto.
  Qed.
  Lemma child_in m t y : stored H m t → child m (troot H t) y →
    (∃ u, subtrie u t ∧ y = troot H u) ∨ (∃ e, has m y (VData e)).
  Proof.
    intros Hst (nd & Hl & Hy). pose proof (stored_root H m t Hst) as Hr. apply has_lookup in Hr as [rf Hr].
    rewrite Hl in Hr. injection Hr as ->. destruct t as [k e|l r]; simpl in Hy.
    - apply elem_of_list_singleton in Hy as ->. right. exists e. by apply Hst.
    - left. apply elem_of_cons in Hy as [->|Hy]; [exists l|apply elem_of_list_singleton in Hy as ->; exists r];
        (split; [|done]); [apply sub_l|apply sub_r]; constructor.
  Qed.
  Lemma below_in m t y : stored H m t → rtc (child m) (troot H t) y →
    (∃ u, subtrie u t ∧ y = troot H u) ∨ (∃ e, has m y (VData e)).
  Proof.
    intros Hst Hr.
    assert (∀ x, rtc (child m) x y → (∃ u, subtrie u t ∧ x = troot H u) ∨ (∃ e, has m x (VData e)) →
      (∃ u, subtrie u t ∧ y = troot H u) ∨ (∃ e, has m y (VData e))) as Hgen.
    { clear Hr. induction 1 as [|x x' y Hc _ IH]; [done|]. intros [(u & Hu & ->)|(e & He)]; apply IH.
      - assert (stored H m u) as Hsu by (by eapply subtrie_stored).
        destruct (child_in m u x' Hsu Hc) as [(u' & Hu' & ->)|?]; [|by right].
        left. exists u'. split; [by eapply subtrie_trans|done].
      - destruct Hc as (nd & Hl & Hy). apply has_lookup in He as [rf He]. rewrite Hl in He.
        injection He as ->. by apply elem_of_nil in Hy. }
    apply (Hgen (troot H t)); [done|]. left. exists t. split; [constructor|done].
  Qed.
  Lemma branch_ok_stored m l r : twf (TNode l r) → stored H m (TNode l r) →
    branch_ok m (tsize l + tsize r) (troot H l) (troot H r) (tsplit l r) (tmin l).
  Proof.
    intros Hwf (_ & Hl & Hr). pose proof Hwf as (Hwl & Hwr & Hlt & HL & HR).
    exists (tkeys l), (tkeys r). split_and!.
    - by apply keys_at_stored.
    - by apply keys_at_stored.
    - intros Hnil. pose proof (tmin_in l) as Hm. rewrite Hnil in Hm. by apply elem_of_nil in Hm.
    - intros Hnil. pose proof (tmin_in r) as Hm. rewrite Hnil in Hm. by apply elem_of_nil in Hm.
    - by rewrite !tkeys_length.
    - apply tmin_in.
    - intros k Hk. rewrite <- tkeys_node in Hk. pose proof (twf_sorted _ Hwf) as Hs.
      destruct (tleaves_head (TNode l r)) as (e & ls & Hls). unfold tkeys in Hk, Hs. rewrite Hls in Hk, Hs.
      apply elem_of_cons in Hk as [->|Hk]; [by left|]. right.
      apply StronglySorted_inv in Hs as [_ Hs]. rewrite Forall_forall in Hs. by apply Hs.
    - by apply tsplit_lt.
    - intros a b i Ha Hb Hi. rewrite <- tkeys_node in Ha, Hb.
      pose proof (twf_agree l r a Hwf Ha). pose proof (twf_agree l r b Hwf Hb).
      rewrite (klcp_agree a (tmin l)), (klcp_agree b (tmin l)) by lia. done.
    - intros k Hk. by apply (twf_left l r).
    - intros k Hk. by apply (twf_right l r).
    - intros x rf c' z' o' si' bk' Hx Hm.
      assert (∀ u, stored H m u → m !! troot H u = Some (Node rf (VBranch c' z' o' si' bk')) →
        ∃ u1 u2, u = TNode u1 u2 ∧ si' = tsplit u1 u2) as Hu.
      { intros u Hsu Hmu. pose proof (stored_root H m u Hsu) as Hr'. apply has_lookup in Hr' as [rf' Hr'].
        rewrite Hmu in Hr'. destruct u as [|u1 u2]; simpl in Hr'; [done|]. exists u1, u2. split; [done|].
        by injection Hr' as _ _ _ _ -> _. }
      apply elem_of_cons in Hx as [->|Hx]; [|apply elem_of_list_singleton in Hx as ->].
      + destruct (Hu l Hl Hm) as (u1 & u2 & -> & ->). by apply twf_split_l.
      + destruct (Hu r Hr Hm) as (u1 & u2 & -> & ->). by apply twf_split_r.
  Qed.
  Lemma tree_ok_stored {A} m t (M : gmap (arr n) A) : twf t → stored H m t → (∀ k, has_key M k ↔ k ∈ tkeys t) →
    tree_ok m (troot H t) M.
  Proof.
    intros Hwf Hst HM. split.
    - exists (tkeys t). split_and!.
      + by apply keys_at_stored.
      + intros ks' Hk. eapply keys_at_unique; [done|by apply keys_at_stored].
      + by apply twf_sorted.
      + intros k. by rewrite HM.
    - intros x rf c z o si bk Hr Hx. destruct (below_in m t x Hst Hr) as [(u & Hu & ->)|(e & He)].
      + assert (stored H m u) as Hsu by (by eapply subtrie_stored).
        assert (twf u) as Hwu by (by eapply subtrie_twf).
        pose proof (stored_root H m u Hsu) as Hru. apply has_lookup in Hru as [rf' Hru].
        rewrite Hx in Hru. destruct u as [|l r]; simpl in Hru; [done|].
        injection Hru as _ -> -> -> -> ->. by apply branch_ok_stored.
      + apply has_lookup in He as [rf' He]. congruence.
  Qed.
End Shape.

Section Claim.
  Context {n : nat} (Hn : 0 < n) (B : backend n) {HB : BackendOk B} (H : list bytes → arr n).
  Context {V : Type} (enc : V → res bytes) (dec : bytes → res V) (Hcodec : codec_ok enc dec).
  Implicit Types (st : b_st B) (lg L : list (list bytes)) (k r : arr n) (M : gmap (arr n) V).

  Lemma handle_tree_ok L m r M : handle_ok H enc L m (r, M) → tree_ok m r M.
  Proof using.
    intros (t & Hr & Hwf & Hst & _ & He). cbn [fst snd] in *. subst r.
    apply tree_ok_stored; [done|done|]. intros k. rewrite (encs_has enc M _ k He). apply tmap_has.
  Qed.
  (** C27 *)
  Theorem hist_tree_ok st lg hs r M : hist B H enc dec st lg hs → no_collision H lg → (r, M) ∈ hs →
    tree_ok (b_vis B st) r M.
  Proof using Hn Hcodec HB. intros Hh Hc Hr. eapply handle_tree_ok. by eapply hist_handle. Qed.
  Theorem rhist_tree_ok st lg hs r M : rhist B H enc dec st lg hs → no_collision H lg → (r, M) ∈ hs →
    tree_ok (b_vis B st) r M.
  Proof using Hn Hcodec HB.
    intros Hh Hc Hr. destruct (rhist_hinv Hn B H enc dec Hcodec st lg hs lg Hh Hc ltac:(done)) as [_ Hf].
    rewrite Forall_forall in Hf. eapply handle_tree_ok. by apply Hf.
  Qed.
End Claim.
