(** * Roots and proofs as formulas of the contents
    The root of a set of pairs without any tree: bit by bit, the pairs whose key
    has a zero there and those whose key has a one; a branch where there are
    both.  [mpath] lists the siblings on the way to a key. *)
From Coq Require Import Strings.Byte NArith.
From stdpp Require Import prelude countable gmap sorting strings.
From Verif Require Import Model Bits Spec Util Trie Store Logic Build Evol Route Reads Insert Update Safe Get
  Hist Claims RefCount RcInsert RcRemove Total Live Regrow Weak Depth Shape Need.

Local Open Scope nat_scope.

Section Spec.
  Context {n : nat} (H : list bytes → arr n).
  Implicit Types (L : list (arr n * bytes)) (k : arr n) (e : bytes).

  Definition data_hash k e : arr n := H [[x64]; arr_list k; e].
  Definition leaf_hash k e : arr n := H [[x6c]; arr_list k; arr_list (data_hash k e)].
  Definition branch_hash (zero one : arr n) : arr n := H [[x62]; arr_list zero; arr_list one].
  (** The pairs whose key has the bit [b] at place [i], counted from the most significant bit of the first byte. *)
  Definition side (b : bool) (i : nat) L := filter (λ p : arr n * bytes, bit p.1 i = b) L.
  Definition join (zero one : option (arr n)) : option (arr n) :=
    match zero, one with
    | Some z, Some o => Some (branch_hash z o)
    | Some z, None => Some z
    | None, o => o
    end.
  (** [d]: the number of bits from place [i] on. *)
  Fixpoint mroot (d i : nat) L : option (arr n) :=
    match L, d with
    | [], _ => None
    | p :: _, 0 => Some (leaf_hash p.1 p.2)
    | _, S d' => join (mroot d' (S i) (side false i L)) (mroot d' (S i) (side true i L))
    end.
  Definition root_of L : option (arr n) := mroot (8 * n) 0 L.

  Fixpoint mpath (d i : nat) L k : list (arr n * bool) :=
    match d with
    | 0 => []
    | S d' =>
        let b := bit k i in
        match mroot d' (S i) (side (negb b) i L) with Some s => [(s, negb b)] | None => [] end ++
        mpath d' (S i) (side b i L) k
    end.
  Definition proof_of L k e : list (arr n * bool) :=
    (data_hash k e, false) :: (leaf_hash k e, false) :: reverse (mpath (8 * n) 0 L k).
End Spec.

Section Formula.
  Context {n : nat} (H : list bytes → arr n).
  Implicit Types (L : list (arr n * bytes)) (k : arr n) (e : bytes) (t l r : trie n).

  Lemma side_all b i L : (∀ p, p ∈ L → bit p.1 i = b) → side b i L = L.
  Proof.
    intros Ha. unfold side. induction L as [|p L IH]; [done|]. rewrite filter_cons_True.
    - f_equal. apply IH. intros q Hq. apply Ha. by right.
    - apply Ha. by left.
  Qed.
  Lemma side_none b i L : (∀ p, p ∈ L → bit p.1 i = negb b) → side b i L = [].
  Proof.
    intros Ha. unfold side. induction L as [|p L IH]; [done|]. rewrite filter_cons_False.
    - apply IH. intros q Hq. apply Ha. by right.
    - change (bit p.1 i ≠ b). rewrite (Ha p) by (by left). by destruct b.
  Qed.
  Lemma side_perm b i L L' : L ≡ₚ L' → side b i L ≡ₚ side b i L'.
  Proof. intros Hp. unfold side. by rewrite Hp. Qed.
  Lemma side_app b i L L' : side b i (L ++ L') = side b i L ++ side b i L'.
  Proof. unfold side. apply filter_app. Qed.
  Lemma side_leaves b i t L : L ≡ₚ tleaves t → (∀ a, a ∈ tkeys t → bit a i = b) → side b i L ≡ₚ tleaves t.
  Proof.
    intros Hp Ha. rewrite (side_perm b i L _ Hp), side_all; [done|]. intros [k e] Hin. apply Ha, elem_of_tkeys. eauto.
  Qed.
  Lemma side_no_leaves b i t L : L ≡ₚ tleaves t → (∀ a, a ∈ tkeys t → bit a i = negb b) → side b i L = [].
  Proof.
    intros Hp Ha. apply side_none. intros [k e] Hin. apply Ha, elem_of_tkeys. exists e. by rewrite <- Hp.
  Qed.
  Lemma mroot_nil d i : mroot H d i [] = None.
  Proof. by destruct d. Qed.
  Lemma mroot_step d i L : mroot H (S d) i L = join H (mroot H d (S i) (side false i L)) (mroot H d (S i) (side true i L)).
  Proof. destruct L; [|done]. by rewrite !mroot_nil. Qed.

  (** All keys of [t] agree before the place [i], and the split is at [i] or further on. *)
  Definition from i t : Prop := ∀ a b, a ∈ tkeys t → b ∈ tkeys t → i ≤ klcp a b.
  Lemma from_split i l r : from i (TNode l r) → i ≤ tsplit l r.
  Proof. intros Hf. apply Hf; rewrite tkeys_node; apply elem_of_app; [left|right]; apply tmin_in. Qed.
  Lemma from_bits i t b : from (S i) t → bit (tmin t) i = b → ∀ a, a ∈ tkeys t → bit a i = b.
  Proof. intros Hf <- a Ha. apply klcp_agree. pose proof (Hf a (tmin t) Ha (tmin_in t)). lia. Qed.
  Lemma from_sides i l r : twf (TNode l r) → i = tsplit l r → from (S i) l ∧ from (S i) r.
  Proof.
    intros Hwf ->. split; intros a b Ha Hb.
    - destruct (twf_left l r a Hwf Ha) as [H1 _], (twf_left l r b Hwf Hb) as [H2 _].
      pose proof (klcp_ultra a (tmin l) b) as Hu. rewrite (klcp_sym (tmin l) b) in Hu. lia.
    - destruct (twf_right l r a Hwf Ha) as (_ & H1 & _), (twf_right l r b Hwf Hb) as (_ & H2 & _).
      pose proof (klcp_ultra a (tmin r) b) as Hu. rewrite (klcp_sym (tmin r) b) in Hu. lia.
  Qed.
  Lemma from_more i l r : twf (TNode l r) → i < tsplit l r → from (S i) (TNode l r).
  Proof.
    intros Hwf Hlt a b Ha Hb. pose proof (twf_agree l r a Hwf Ha). pose proof (twf_agree l r b Hwf Hb).
    pose proof (klcp_ultra a (tmin l) b) as Hu. rewrite (klcp_sym (tmin l) b) in Hu. lia.
  Qed.

  Lemma mroot_trie d : ∀ i t L, twf t → L ≡ₚ tleaves t → i + d = 8 * n → from i t → mroot H d i L = Some (troot H t).
  Proof.
    induction d as [|d IH]; intros i t L Hwf Hp Hd Hf.
    - destruct t as [k e|l r].
      + apply Permutation_singleton_r in Hp as ->. done.
      + pose proof (from_split i l r Hf). pose proof Hwf as (_&_&Hlt&_). pose proof (tsplit_lt l r Hlt). lia.
    - rewrite mroot_step.
      assert (from (S i) t → mroot H (S d) i L = Some (troot H t)) as Hsame.
      { intros Hs. rewrite mroot_step. pose proof (from_bits i t _ Hs eq_refl) as Hb.
        destruct (bit (tmin t) i) eqn:Hbt.
        - rewrite (side_no_leaves false i t L Hp Hb), mroot_nil.
          rewrite (IH (S i) t _ Hwf (side_leaves true i t L Hp Hb)) by (done || lia). done.
        - rewrite (side_no_leaves true i t L Hp Hb), mroot_nil.
          rewrite (IH (S i) t _ Hwf (side_leaves false i t L Hp Hb)) by (done || lia). done. }
      rewrite mroot_step in Hsame.
      destruct t as [k e|l r].
      + apply Hsame. intros a b Ha Hb. cbn in Ha, Hb. apply elem_of_list_singleton in Ha as ->, Hb as ->.
        rewrite klcp_refl. lia.
      + pose proof (from_split i l r Hf) as Hs. destruct (decide (i = tsplit l r)) as [->|Hne].
        2:{ apply Hsame, from_more; [done|lia]. }
        destruct (from_sides _ l r Hwf eq_refl) as [Hfl Hfr]. pose proof Hwf as (Hwl & Hwr & Hlt & _).
        destruct (tsplit_bits l r Hlt) as [Hbl Hbr].
        pose proof (from_bits _ l _ Hfl Hbl) as Hl. pose proof (from_bits _ r _ Hfr Hbr) as Hr.
        assert (side false (tsplit l r) L ≡ₚ tleaves l) as Hpl.
        { rewrite (side_perm _ _ L _ Hp). cbn [tleaves]. rewrite side_app.
          rewrite (side_no_leaves false _ r (tleaves r) (Permutation_refl _) Hr), app_nil_r.
          by apply (side_leaves false _ l). }
        assert (side true (tsplit l r) L ≡ₚ tleaves r) as Hpr.
        { rewrite (side_perm _ _ L _ Hp). cbn [tleaves]. rewrite side_app.
          rewrite (side_no_leaves true _ l (tleaves l) (Permutation_refl _) Hl). cbn [app].
          by apply (side_leaves true _ r). }
        rewrite (IH _ l _ Hwl Hpl) by (done || lia). rewrite (IH _ r _ Hwr Hpr) by (done || lia). done.
  Qed.
  Lemma mpath_trie d : ∀ i t L k e, twf t → L ≡ₚ tleaves t → i + d = 8 * n → from i t → (k, e) ∈ tleaves t →
    tproof H t k = mpath H d i L k ++ [(lloc H k e, false); (dloc H k e, false)].
  Proof.
    induction d as [|d IH]; intros i t L k e Hwf Hp Hd Hf Hk.
    - destruct t as [k' e'|l r].
      + apply elem_of_list_singleton in Hk as [= -> ->]. done.
      + pose proof (from_split i l r Hf). pose proof Hwf as (_&_&Hlt&_). pose proof (tsplit_lt l r Hlt). lia.
    - assert (k ∈ tkeys t) as Hkt by (apply elem_of_tkeys; eauto).
      assert (from (S i) t → tproof H t k = mpath H (S d) i L k ++ [(lloc H k e, false); (dloc H k e, false)]) as Hsame.
      { intros Hs. cbn [mpath]. pose proof (from_bits i t _ Hs eq_refl) as Hb.
        rewrite (Hb k Hkt). set (b := bit (tmin t) i) in *.
        rewrite (side_no_leaves (negb b) i t L Hp) by (intros a Ha; rewrite negb_involutive; auto). rewrite mroot_nil.
        cbn [app]. apply IH; [done|by apply side_leaves|lia|done|done]. }
      destruct t as [k' e'|l r].
      + apply Hsame. intros a b Ha Hb. cbn in Ha, Hb. apply elem_of_list_singleton in Ha as ->, Hb as ->.
        rewrite klcp_refl. lia.
      + pose proof (from_split i l r Hf) as Hs. destruct (decide (i = tsplit l r)) as [->|Hne].
        2:{ apply Hsame, from_more; [done|lia]. }
        destruct (from_sides _ l r Hwf eq_refl) as [Hfl Hfr]. pose proof Hwf as (Hwl & Hwr & Hlt & _).
        destruct (tsplit_bits l r Hlt) as [Hbl Hbr].
        pose proof (from_bits _ l _ Hfl Hbl) as Hl. pose proof (from_bits _ r _ Hfr Hbr) as Hr.
        assert (side false (tsplit l r) L ≡ₚ tleaves l) as Hpl.
        { rewrite (side_perm _ _ L _ Hp). cbn [tleaves]. rewrite side_app.
          rewrite (side_no_leaves false _ r (tleaves r) (Permutation_refl _) Hr), app_nil_r.
          by apply (side_leaves false _ l). }
        assert (side true (tsplit l r) L ≡ₚ tleaves r) as Hpr.
        { rewrite (side_perm _ _ L _ Hp). cbn [tleaves]. rewrite side_app.
          rewrite (side_no_leaves true _ l (tleaves l) (Permutation_refl _) Hl). cbn [app].
          by apply (side_leaves true _ r). }
        cbn [tleaves] in Hk. cbn [tproof mpath]. apply elem_of_app in Hk as [Hk|Hk].
        * rewrite (Hl k) by (apply elem_of_tkeys; eauto). cbn [negb].
          rewrite (mroot_trie d _ r _ Hwr Hpr) by (done || lia). cbn [app]. f_equal.
          apply IH; [done|done|lia|done|done].
        * rewrite (Hr k) by (apply elem_of_tkeys; eauto). cbn [negb].
          rewrite (mroot_trie d _ l _ Hwl Hpl) by (done || lia). cbn [app]. f_equal.
          apply IH; [done|done|lia|done|done].
  Qed.

  Context (Hn : 0 < n) (B : backend n) {HB : BackendOk B}.
  Context {V : Type} (enc : V → res bytes) (dec : bytes → res V) (Hcodec : codec_ok enc dec).

  (** [L] lists the encoded pairs of [M], in any order. *)
  Definition pairs_of (M : gmap (arr n) V) L : Prop := NoDup L ∧ ∀ k e, (k, e) ∈ L ↔ ∃ v, M !! k = Some v ∧ enc v = Ok e.

  Lemma live_pairs st lg (r : arr n) M L : live B H enc dec st lg r M → no_collision H lg → pairs_of M L →
    ∃ t, r = troot H t ∧ twf t ∧ stored H (b_vis B st) t ∧ L ≡ₚ tleaves t ∧ from 0 t.
  Proof using Hn Hcodec HB.
    intros Hl Hc [Hnd HL]. destruct (live_handle Hn B H enc dec Hcodec st lg r M Hl Hc) as (t & Hr & Hwf & Hst & _ & Hen).
    exists t. cbn [fst snd] in *. split_and!; [done|done|done| |intros a b _ _; lia].
    apply NoDup_Permutation; [done|eapply NoDup_fmap_1, (twf_nodup t Hwf)|].
    intros [k e]. rewrite HL, <- (tmap_lookup t k e Hwf). specialize (Hen k). split.
    - intros (v & Hv & He). rewrite Hv in Hen. inversion Hen; subst. congruence.
    - intros Ht. rewrite Ht in Hen. inversion Hen as [v e' Hev|]; subst. eauto.
  Qed.

  Theorem root_formula st lg (r : arr n) M L : live B H enc dec st lg r M → no_collision H lg → pairs_of M L → root_of H L = Some r.
  Proof using Hn Hcodec HB.
    intros Hl Hc HL. destruct (live_pairs st lg r M L Hl Hc HL) as (t & -> & Hwf & _ & Hp & Hf).
    unfold root_of. apply mroot_trie; [done|done|lia|done].
  Qed.

  Theorem proof_formula st lg (r : arr n) M L D k v e : live B H enc dec st lg r M → no_collision H lg → pairs_of M L →
    M !! k = Some v → enc v = Ok e → 8 * n + 1 ≤ D →
    out B H (generate_inclusion_proof D r k) st = ROk (proof_of H L k e).
  Proof using Hn Hcodec HB.
    intros Hl Hc HL Hk He HD. pose proof (proj2 HL k e) as Hin. destruct (live_pairs st lg r M L Hl Hc HL) as (t & -> & Hwf & Hst & Hp & Hf).
    assert ((k, e) ∈ tleaves t) as Hkt by (rewrite <- Hp; apply Hin; eauto).
    rewrite (gen_proof_run Hn) by (auto using twf_tpwf).
    pose proof (tneed_depth Hn t k). pose proof (twf_depth t Hwf).
    destruct (Nat.ltb_spec D (tneed t k)); [lia|].
    rewrite tlookup_tmap by done. apply tmap_lookup in Hkt as Hkm; [|done]. rewrite Hkm.
    rewrite (mpath_trie (8 * n) 0 t L k e) by (done || lia). rewrite reverse_app. done.
  Qed.
End Formula.
