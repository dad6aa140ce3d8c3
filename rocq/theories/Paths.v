(** * Uniqueness of verifying proofs
    What [verify_inclusion_proof] pins down: for an arbitrary root hash, the
    leaf at each position; for the root of a tree, the whole proof. *)
From Coq Require Import Strings.Byte NArith.
From stdpp Require Import prelude countable gmap sorting strings.
From Verif Require Import Model Bits Spec Util Trie Store Logic Reads Hist Claims.

Local Open Scope nat_scope.

Section Paths.
  Context {n : nat} (H : list bytes → arr n).
  Context (S : list bytes → Prop) (Hinj : inj_on H S).
  Implicit Types (k : arr n) (e : bytes) (items : list (arr n * bool)).

  (** Two chains from leaves to the same hash, one position above the other:
      the chains are the same. *)
  Lemma vfold_same_path i1 i2 k1 e1 k2 e2 :
    S (leaf_in k1 (dloc H k1 e1)) → S (leaf_in k2 (dloc H k2 e2)) →
    Forall S (vlog H (lloc H k1 e1) i1) → Forall S (vlog H (lloc H k2 e2) i2) →
    i1.*2 `suffix_of` i2.*2 → vfold H (lloc H k1 e1) i1 = vfold H (lloc H k2 e2) i2 →
    i1 = i2 ∧ lloc H k1 e1 = lloc H k2 e2.
  Proof.
    intros Hl1 Hl2. revert i2.
    induction i1 as [|[h1 b1] i1 IH] using rev_ind; intros i2 Hs1 Hs2 Hsuf Heq.
    - destruct i2 as [|[h2 b2] i2 _] using rev_ind; [done|].
      rewrite vfold_app in Heq. rewrite vlog_app in Hs2. apply Forall_app in Hs2 as [_ Hs2].
      simpl in Heq, Hs2. apply Forall_cons in Hs2 as [Hs2 _].
      apply Hinj in Heq; [|done|done]. by destruct b2.
    - destruct i2 as [|[h2 b2] i2 _] using rev_ind.
      { apply suffix_length in Hsuf. rewrite fmap_app, app_length in Hsuf. simpl in Hsuf. lia. }
      rewrite !vfold_app in Heq. rewrite vlog_app in Hs1, Hs2.
      apply Forall_app in Hs1 as [Hs1 Hx1], Hs2 as [Hs2 Hx2].
      simpl in Heq, Hx1, Hx2. apply Forall_cons in Hx1 as [Hx1 _], Hx2 as [Hx2 _].
      rewrite !fmap_app in Hsuf. destruct Hsuf as [pre Hpre]. simpl in Hpre. rewrite app_assoc in Hpre.
      apply app_inj_tail in Hpre as [Hpre ->].
      apply Hinj in Heq; [|done|done].
      destruct b1; apply branch_in_inj in Heq as [Ha Hb]; subst;
        (destruct (IH i2) as [-> ?]; [done|done|by exists pre|done|done]).
  Qed.

  (** A chain from a leaf to the root of a well-formed trie is its path. *)
  Lemma vfold_unique items k e t :
    Forall S (tpre H t) → twf t →
    S (data_in k e) → S (leaf_in k (dloc H k e)) → Forall S (vlog H (lloc H k e) items) →
    vfold H (lloc H k e) items = troot H t → tlookup t k = Some e ∧ items = reverse (tpath H t k).
  Proof.
    intros Ht Hwf Hd Hl. revert t Ht Hwf.
    induction items as [|[h b] items IH] using rev_ind; intros t Ht Hwf Hlog Heq.
    - simpl in Heq. change (lloc H k e) with (troot H (TLeaf k e)) in Heq.
      apply (troot_inj H S Hinj) in Heq; [subst t| |done].
      + simpl. by rewrite decide_True by done.
      + simpl. rewrite !Forall_cons. auto.
    - rewrite vfold_app in Heq. rewrite vlog_app in Hlog.
      apply Forall_app in Hlog as [Hlog1 Hlog2]. simpl in Heq, Hlog2.
      rewrite Forall_cons in Hlog2. destruct Hlog2 as [Hx _].
      set (cur := vfold H (lloc H k e) items) in *.
      destruct t as [k' e'|l r]; simpl in Heq, Ht; rewrite !Forall_cons in Ht.
      + destruct Ht as (_ & Hlf & _). apply Hinj in Heq; [|done|done]. by destruct b.
      + destruct Ht as [Hb Hlr]. apply Forall_app in Hlr as [Hpl Hpr].
        apply Hinj in Heq; [|done|done].
        assert (twf l ∧ twf r) as [Hwl Hwr] by (by destruct Hwf as (?&?&_)).
        destruct b; apply branch_in_inj in Heq as [H1 H2].
        * destruct (IH l) as [Hk ->]; try done.
          pose proof (tlookup_elem _ _ _ Hk) as Hin.
          assert (k ∈ tkeys l) as Hkl by (apply elem_of_tkeys; eauto).
          destruct (twf_left l r k Hwf Hkl) as [_ Hbit].
          split; [apply tlookup_complete; [done|]; simpl; apply elem_of_app; by left|].
          cbn [tpath]. rewrite Hbit, reverse_cons, H2. done.
        * destruct (IH r) as [Hk ->]; try done.
          pose proof (tlookup_elem _ _ _ Hk) as Hin.
          assert (k ∈ tkeys r) as Hkr by (apply elem_of_tkeys; eauto).
          destruct (twf_right l r k Hwf Hkr) as (_ & _ & Hbit).
          split; [apply tlookup_complete; [done|]; simpl; apply elem_of_app; by right|].
          cbn [tpath]. rewrite Hbit, reverse_cons, H1. done.
  Qed.
End Paths.

Section Claims.
  Context {n : nat} (Hn : 0 < n) (B : backend n) {HB : BackendOk B} (H : list bytes → arr n).
  Context {V : Type} (enc : V → res bytes) (dec : bytes → res V) (Hcodec : codec_ok enc dec).

  (** C15, the part that holds. *)
  Theorem same_path root k1 v1 p1 k2 v2 p2 (B1 B2 : backend n) (st1 : b_st B1) (st2 : b_st B2) :
    no_collision H (hlog B1 H (verify_inclusion_proof enc root k1 v1 p1) st1 ++
                    hlog B2 H (verify_inclusion_proof enc root k2 v2 p2) st2) →
    out B1 H (verify_inclusion_proof enc root k1 v1 p1) st1 = ROk tt →
    out B2 H (verify_inclusion_proof enc root k2 v2 p2) st2 = ROk tt →
    (drop 2 p1).*2 `suffix_of` (drop 2 p2).*2 →
    k1 = k2 ∧ v1 = v2 ∧ p1.*1 = p2.*1 ∧ drop 2 p1 = drop 2 p2.
  Proof using Hcodec.
    intros Hc H1 H2 Hsuf.
    destruct (verify_ok_inv B1 H enc root k1 v1 p1 st1 H1)
      as (e1 & a0 & a1 & i1 & He1 & -> & Hp0 & Hp1 & Hf1 & Hlog1).
    destruct (verify_ok_inv B2 H enc root k2 v2 p2 st2 H2)
      as (e2 & b0 & b1 & i2 & He2 & -> & Hq0 & Hq1 & Hf2 & Hlog2).
    rewrite Hlog1, Hlog2 in Hc. set (L := _ ++ _) in Hc. simpl in Hsuf.
    assert (∀ x, x ∈ data_in k1 e1 :: leaf_in k1 (dloc H k1 e1) :: vlog H (lloc H k1 e1) i1 → x ∈ L) as HL1.
    { intros x Hx. apply elem_of_app. by left. }
    assert (∀ x, x ∈ data_in k2 e2 :: leaf_in k2 (dloc H k2 e2) :: vlog H (lloc H k2 e2) i2 → x ∈ L) as HL2.
    { intros x Hx. apply elem_of_app. by right. }
    assert (i1 = i2 ∧ lloc H k1 e1 = lloc H k2 e2) as [-> Hll].
    { apply (vfold_same_path H (λ x, x ∈ L) Hc); try done.
      - apply HL1. right. by left.
      - apply HL2. right. by left.
      - apply Forall_forall. intros x Hx. apply HL1. right. by right.
      - apply Forall_forall. intros x Hx. apply HL2. right. by right.
      - congruence. }
    assert (leaf_in k1 (dloc H k1 e1) = leaf_in k2 (dloc H k2 e2)) as Hleaf.
    { apply Hc; [apply HL1|apply HL2|done]; right; by left. }
    apply leaf_in_inj in Hleaf as [-> Hdd].
    assert (data_in k2 e1 = data_in k2 e2) as Hdata.
    { apply Hc; [apply HL1|apply HL2|done]; by left. }
    apply data_in_inj in Hdata as [_ ->].
    split_and!; [done| | |done].
    - pose proof (dec_enc _ _ Hcodec v1 e2 He1). pose proof (dec_enc _ _ Hcodec v2 e2 He2). congruence.
    - cbn. congruence.
  Qed.

  (** C48 *)
  Theorem proof_unique st lg hs r M D k v p (B' : backend n) (st' : b_st B') :
    hist B H enc dec st lg hs → (r, M) ∈ hs → 8 * n + 1 ≤ D →
    no_collision H (lg ++ hlog B' H (verify_inclusion_proof enc r k v p) st') →
    out B' H (verify_inclusion_proof enc r k v p) st' = ROk tt →
    ∃ p', out B H (generate_inclusion_proof D r k) st = ROk p' ∧ p.*1 = p'.*1 ∧ drop 2 p = drop 2 p'.
  Proof using Hn Hcodec HB.
    intros Hh Hr HD Hc Hout. set (L := lg ++ _) in *.
    assert (hinv B H enc L st hs) as [HJ Hf]
      by (eapply hist_hinv; eauto; intros; apply elem_of_app; by left).
    rewrite Forall_forall in Hf. destruct (Hf _ Hr) as (t & Hroot & Hwf & Hst & Hpre & He). simpl in *.
    destruct (verify_ok_inv B' H enc r k v p st' Hout)
      as (e & p0 & p1 & items & Hev & -> & Hp0 & Hp1 & Hfold & Hlog).
    assert (tlookup t k = Some e ∧ items = reverse (tpath H t k)) as [Hk ->].
    { apply (vfold_unique H (λ x, x ∈ L) Hc); try done.
      - apply elem_of_app. right. rewrite Hlog. by left.
      - apply elem_of_app. right. rewrite Hlog. right. by left.
      - apply Forall_forall. intros x Hx. apply elem_of_app. right. rewrite Hlog. right. by right.
      - congruence. }
    exists (reverse (tproof H t k)). rewrite Hroot.
    rewrite (gen_proof_run Hn B H D k t st Hst ltac:(by apply twf_tpwf)).
    pose proof (tneed_depth Hn t k). pose proof (twf_depth t Hwf).
    rewrite (proj2 (Nat.ltb_ge D (tneed t k))) by lia. rewrite Hk. split; [done|].
    rewrite (tproof_path H t k e Hk), reverse_app. cbn. split; congruence.
  Qed.
End Claims.
