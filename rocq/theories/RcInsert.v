(** * Reference counts after an insertion *)
From Coq Require Import Strings.Byte NArith.
From stdpp Require Import prelude countable gmap sorting strings.
From Verif Require Import Model Bits Spec Util Trie Store Logic Build Evol Route Insert Update RefCount RcRemove.

Local Open Scope nat_scope.

Section RcInsert.
  Context {n : nat} (H : list bytes → arr n).
  Context (S : list bytes → Prop) (Hinj : inj_on H S) (ex : Prop) {fl : arr n → nat}.
  Context (m0 : db n) (isnew : arr n → bytes → Prop) (piece : trie n → Prop).
  Context (X0 : list (arr n)) (t : trie n).
  Definition has_new (u : trie n) : Prop := ∃ k e, isnew k e ∧ subtrie (TLeaf k e) u.
  (** The branches written are new, and for exact counts also the leaves; the
      final tree has distinct keys, and it has no branch joining two reused
      subtries. *)
  Context (dup : arr n → bytes → Prop) (Hdup : ∀ k e, isnew k e → dup k e → False).
  Context (Hfresh : ex → ∀ k e, isnew k e → m0 !! lloc H k e = None ∧ m0 !! dloc H k e = None).
  Context (Hbranch : ∀ l r, subtrie (TNode l r) t → has_new (TNode l r) → Forall S (tpre H (TNode l r)) →
    m0 !! troot H (TNode l r) = None).
  Context (Hnd : NoDup (tkeys t)).
  Context (Hjoin : ∀ l r, piece l → piece r → ¬ subtrie (TNode l r) t).
  Context (Hp0 : proper H S m0).
  Implicit Types (m : db n) (P : list (arr n)) (ts : list (trie n)) (k : arr n) (e : bytes).
  Implicit Types (x y : ist (n := n)) (u : trie n).
  Notation ev := (ev H S fl isnew piece dup).

  (** What is still to come constrains the tries held so far. *)
  Definition toward x : Prop :=
    (∀ u, u ∈ x.2 → subtrie u t) ∧ NoDup (mjoin (tkeys <$> x.2)).
  Lemma ev_toward x y : ev x y → toward y → toward x.
  Proof using.
    intros Hev [Hs Hd]. inversion Hev as [m P ts k e rd rl|m P ts u rf|m P ts k e rf|m P ts l r ts' Hp Hlt];
      subst; simpl in *; unfold toward; simpl.
    - split; [intros u Hu; apply Hs; by right|]. cbn in Hd. by apply NoDup_cons in Hd as [_ ?].
    - split; [intros u' Hu; apply Hs; by right|]. cbn in Hd. by apply NoDup_app in Hd as (_ & _ & ?).
    - done.
    - assert (mjoin (tkeys <$> ts) ≡ₚ mjoin (tkeys <$> TNode l r :: ts')) as Hpm.
      { rewrite Hp.
        change (tkeys l ++ tkeys r ++ mjoin (tkeys <$> ts') ≡ₚ tkeys (TNode l r) ++ mjoin (tkeys <$> ts')).
        by rewrite tkeys_node, <- app_assoc. }
      split; [|by rewrite Hpm].
      intros u. rewrite Hp, !elem_of_cons. pose proof (Hs (TNode l r) ltac:(by left)) as Hn.
      intros [->|[->|Hu]].
      + eapply subtrie_trans; [|exact Hn]. apply sub_l. constructor.
      + eapply subtrie_trans; [|exact Hn]. apply sub_r. constructor.
      + apply Hs. by right.
  Qed.
  Lemma evs_toward x y : rtc ev x y → toward y → toward x.
  Proof using. induction 1 as [|x y z Hev _ IH]; [done|]. intros Hz. eapply ev_toward; eauto. Qed.
  Lemma toward_final m P : toward (m, P, [t]).
  Proof using Hnd. split; simpl; [intros u ->%elem_of_list_singleton; constructor|by rewrite app_nil_r]. Qed.

  Record rinv x : Prop := {
    rinv_rc : RC ex x.1.1 (X0 ++ (troot H <$> x.2));
    rinv_proper : proper H S x.1.1;
    rinv_dom : ∀ l, is_Some (x.1.1 !! l) → is_Some (m0 !! l) ∨ l ∈ x.1.2;
    rinv_written : ∀ l, l ∈ x.1.2 → ∃ o u, u ∈ x.2 ∧ osub o u ∧ oloc H o = l;
    rinv_made : ∀ u, u ∈ x.2 → piece u ∨ has_new u;
    rinv_pre : ∀ u, u ∈ x.2 → Forall S (tpre H u);
  }.

  Lemma mjoin_disjoint u ts u' k : NoDup (mjoin (tkeys <$> u :: ts)) → u' ∈ ts →
    k ∈ tkeys u → k ∈ tkeys u' → False.
  Proof.
    cbn. intros (_ & Hd & _)%NoDup_app Hu Hk Hk'. apply (Hd k Hk).
    apply elem_of_list_join. exists (tkeys u'). split; [done|]. apply elem_of_list_fmap. eauto.
  Qed.

  (** An object of a trie about to be added has not been written. *)
  Lemma unwritten m P ts u o : rinv (m, P, ts) → NoDup (mjoin (tkeys <$> u :: ts)) →
    Forall S (tpre H u) → osub o u → oloc H o ∉ P.
  Proof using Hinj.
    intros HI Hdis Hpre Ho Hin. destruct (rinv_written _ HI _ Hin) as (o' & u' & Hu' & Ho' & Heq).
    simpl in Hu'. apply (oloc_inj H S Hinj) in Heq.
    - subst o'. apply osub_key in Ho, Ho'. by eapply mjoin_disjoint.
    - eapply osub_pre; [done|]. by apply (rinv_pre _ HI).
    - by eapply osub_pre.
  Qed.

  Lemma ev_rinv x y : ev x y → toward y → rinv x → rinv y.
  Proof using Hinj Hdup Hfresh Hbranch Hjoin Hp0.
    clear Hnd. intros Hev [Hsub Hdis] HI.
    inversion Hev as [m P ts k e rd rl Hnew Hd Hl Hbd Hbl|m P ts u rf Hpc Hst Hw Hpre Hb
      |m P ts k e rf Hnew Hdu|m P ts l r ts' Hperm Hlt Hb]; subst; simpl in *.
    - (* a new leaf *)
      assert (Forall S (tpre H (TLeaf k e))) as Hpre by (by repeat constructor).
      assert (lloc H k e ∉ P) as HlP.
      { apply (unwritten m P ts (TLeaf k e) (OT (TLeaf k e)) HI Hdis Hpre). constructor. }
      assert (dloc H k e ∉ P) as HdP.
      { apply (unwritten m P ts (TLeaf k e) (OD k e) HI Hdis Hpre). constructor. }
      assert (ex → m !! lloc H k e = None ∧ m !! dloc H k e = None) as Hmn.
      { intros Hex. destruct (Hfresh Hex k e Hnew) as [Hfl Hfd].
        split; apply eq_None_not_Some; (intros [Hs|Hs]%(rinv_dom _ HI); [|done]).
        - rewrite Hfl in Hs. by destruct Hs.
        - rewrite Hfd in Hs. by destruct Hs. }
      apply proj1 in Hbd, Hbl. specialize (Hbd HdP). specialize (Hbl HlP).
      assert (lloc H k e ≠ dloc H k e) as Hne.
      { apply (troot_dloc H S Hinj (TLeaf k e)); done. }
      constructor; simpl.
      + assert (∀ m' X, (ex → False) → RC False m' X → RC ex m' X) as Hweak.
        { intros m' X Hnex (Hk & HX & Hc). split_and!; try done. intros l nd Hl'.
          destruct (Hc l nd Hl'). split; [done|]. intros Hex. by destruct Hnex. }
        assert (RC ex (<[dloc H k e := Node rd (VData e)]> m) (dloc H k e :: X0 ++ (troot H <$> ts))) as HR1.
        { unfold nrefs in Hbd. destruct (m !! dloc H k e) as [nd|] eqn:Hmd.
          - pose proof (proper_lookup H S Hinj m (OD k e) nd (rinv_proper _ HI)
              ltac:(by repeat constructor) Hmd) as (Hv & _).
            pose proof (RC_bump ex m (X0 ++ (troot H <$> ts)) _ _ Hmd (rinv_rc _ HI)) as HR1. cbn in Hv. by rewrite Hv, <- Hbd in HR1.
          - simpl in Hbd. subst rd. eapply (RC_new _ _ _ (X0 ++ (troot H <$> ts))); [done|done|done|apply HI]. }
        set (m1 := <[dloc H k e := _]> m) in *.
        assert (m1 !! lloc H k e = m !! lloc H k e) as Hm1 by (unfold m1; by rewrite lookup_insert_ne).
        apply (RC_perm ex _ (lloc H k e :: X0 ++ (troot H <$> ts))); [by rewrite Permutation_middle|].
        unfold nrefs in Hbl. rewrite <- Hm1 in Hbl. destruct (m1 !! lloc H k e) as [nd|] eqn:Hml.
        * apply Hweak; [intros Hex; destruct (Hmn Hex); congruence|].
          pose proof (proper_lookup H S Hinj m (OT (TLeaf k e)) nd (rinv_proper _ HI)
            ltac:(done) (eq_sym Hm1)) as (Hv & _).
          pose proof (RC_bump ex m1 _ _ _ Hml HR1) as HR2. cbn in Hv. rewrite Hv, <- Hbl in HR2.
          apply (RC_less ex _ _ [dloc H k e]). eapply RC_perm; [|exact HR2].
          rewrite (Permutation_app_comm (_ :: _) [_]). cbn. apply Permutation_swap.
        * simpl in Hbl. subst rl. eapply (RC_new _ _ (dloc H k e :: X0 ++ (troot H <$> ts))); [done|done| |exact HR1].
          done.
      + eapply (proper_put H S Hinj _ (OT (TLeaf k e))); try done.
        * apply (proper_put H S Hinj _ (OD k e)); try done; [apply HI|by repeat constructor].
        * simpl. apply has_insert. by left.
      + intros l Hl'. destruct (decide (l = lloc H k e)) as [->|]; [right; by left|].
        rewrite lookup_insert_ne in Hl' by done.
        destruct (decide (l = dloc H k e)) as [->|]; [right; right; by left|].
        rewrite lookup_insert_ne in Hl' by done.
        destruct (rinv_dom _ HI l Hl') as [?|?]; [by left|]. right. by do 2 right.
      + intros l. rewrite !elem_of_cons. intros [->|[->|Hin]].
        * exists (OT (TLeaf k e)), (TLeaf k e). split_and!; [by left|constructor|done].
        * exists (OD k e), (TLeaf k e). split_and!; [by left|constructor|done].
        * destruct (rinv_written _ HI l Hin) as (o & u & ?&?&?). exists o, u. split_and!; try done. by right.
      + intros u [->|Hu]%elem_of_cons; [right; exists k, e; split; [done|constructor]|by apply (rinv_made _ HI)].
      + intros u [->|Hu]%elem_of_cons; [done|by apply (rinv_pre _ HI)].
    - (* a reused subtrie *)
      assert (troot H u ∉ P) as HuP.
      { apply (unwritten m P ts u (OT u) HI Hdis Hpre). constructor. }
      apply proj1 in Hb. specialize (Hb HuP). pose proof (stored_root H m u Hst) as Hr. apply has_lookup in Hr as [rf' Hr].
      unfold nrefs in Hb. rewrite Hr in Hb. simpl in Hb. subst rf.
      constructor; simpl.
      + eapply RC_perm; [|eapply (RC_bump _ _ _ _ _ Hr), HI]. simpl. by rewrite Permutation_middle.
      + eapply (proper_put H S Hinj _ (OT u)); try done; [apply HI|].
        by destruct (proj1 (ostored_iff H m (OT u)) Hst).
      + intros l Hl'. destruct (decide (l = troot H u)) as [->|]; [right; by left|].
        rewrite lookup_insert_ne in Hl' by done.
        destruct (rinv_dom _ HI l Hl') as [?|?]; [by left|]. right. by right.
      + intros l. rewrite !elem_of_cons. intros [->|Hin].
        * exists (OT u), u. split_and!; [by left|constructor|done].
        * destruct (rinv_written _ HI l Hin) as (o & u' & ?&?&?). exists o, u'. split_and!; try done. by right.
      + intros u' [->|Hu]%elem_of_cons; [by left|by apply (rinv_made _ HI)].
      + intros u' [->|Hu]%elem_of_cons; [done|by apply (rinv_pre _ HI)].
    - (* a leaf met again: excluded *)
      exfalso. by eapply Hdup.
    - (* a new branch *)
      assert (Forall S (tpre H l) ∧ Forall S (tpre H r)) as [Hprel Hprer].
      { split; apply (rinv_pre _ HI); simpl; rewrite Hperm; set_solver. }
      assert (Forall S (tpre H (TNode l r))) as Hpre.
      { cbn [tpre]. constructor; [done|]. by apply Forall_app. }
      assert (has_new (TNode l r)) as Hnew.
      { destruct (rinv_made _ HI l) as [Hpl|(k & e & ? & ?)]; [simpl; rewrite Hperm; set_solver| |].
        - destruct (rinv_made _ HI r) as [Hpr|(k & e & ? & ?)]; [simpl; rewrite Hperm; set_solver| |].
          + exfalso. apply (Hjoin l r Hpl Hpr). apply Hsub. by left.
          + exists k, e. split; [done|]. by apply sub_r.
        - exists k, e. split; [done|]. by apply sub_l. }
      assert (m !! troot H (TNode l r) = None) as Hnone.
      { apply eq_None_not_Some. intros [[nd Hs]|Hs]%(rinv_dom _ HI).
        - pose proof (Hbranch l r ltac:(apply Hsub; by left) Hnew Hpre) as Hno. cbn [troot] in Hno, Hs. congruence.
        - simpl in Hs. destruct (rinv_written _ HI _ Hs) as (o & u & Hu & Ho & Heq). simpl in Hu.
          change (H (branch_in (troot H l) (troot H r))) with (oloc H (OT (TNode l r))) in Heq.
          apply (oloc_inj H S Hinj) in Heq; [|eapply osub_pre; [done|by apply (rinv_pre _ HI)]|done].
          subst o. simpl in Ho. rewrite Hperm, !elem_of_cons in Hu.
          pose proof (tsize_pos l). pose proof (tsize_pos r).
          destruct Hu as [->|[->|Hu]].
          + apply subtrie_size in Ho. simpl in Ho. lia.
          + apply subtrie_size in Ho. simpl in Ho. lia.
          + eapply (mjoin_disjoint (TNode l r) ts' u (tmin l) Hdis Hu).
            * apply (tmin_in (TNode l r)).
            * apply (osub_key (OT (TNode l r)) u Ho). }
      assert (stored H m l ∧ stored H m r) as [Hstl Hstr].
      { destruct (rinv_rc _ HI) as (Hk & HX & _). simpl in HX.
        assert (∀ u, u ∈ ts → stored H m u) as Hall.
        { intros u Hu. destruct (HX (troot H u)) as [nd Hnd'].
          - apply elem_of_app. right. apply elem_of_list_fmap. eauto.
          - eapply (shallow_stored H S Hinj); [apply (proper_shallow H S), HI|apply (proper_kids H S), HI
              |by apply (rinv_pre _ HI)|done]. }
        split; apply Hall; rewrite Hperm; set_solver. }
      constructor; simpl.
      + eapply RC_perm; [|eapply (RC_new _ _ (X0 ++ (troot H <$> ts)) (X0 ++ (troot H <$> ts')) (troot H (TNode l r)))].
        * by rewrite Permutation_middle.
        * done.
        * done.
        * simpl. rewrite Hperm. simpl. by rewrite <- !Permutation_middle.
        * apply HI.
      + eapply (proper_put H S Hinj _ (OT (TNode l r))); try done; [apply HI|].
        simpl. split_and!; [| |done].
        * destruct (proper_stored H S Hinj m l) with (1 := rinv_proper _ HI) (2 := Hprel) (nd := default (Node 0 (VData [])) (m !! troot H l)) as (_ & _ & ?); [|done].
          apply stored_root, has_lookup in Hstl as [rf ->]. done.
        * destruct (proper_stored H S Hinj m r) with (1 := rinv_proper _ HI) (2 := Hprer) (nd := default (Node 0 (VData [])) (m !! troot H r)) as (_ & _ & ?); [|done].
          apply stored_root, has_lookup in Hstr as [rf ->]. done.
      + intros l0 Hl'. destruct (decide (l0 = troot H (TNode l r))) as [->|Hne]; [right; by left|].
        rewrite lookup_insert_ne in Hl' by done.
        destruct (rinv_dom _ HI l0 Hl') as [?|?]; [by left|]. right. by right.
      + intros l0. rewrite !elem_of_cons. intros [->|Hin].
        * exists (OT (TNode l r)), (TNode l r). split_and!; [by left|constructor|done].
        * destruct (rinv_written _ HI l0 Hin) as (o & u' & Hu'&Ho&?). simpl in Hu'.
          rewrite Hperm, !elem_of_cons in Hu'. destruct Hu' as [->|[->|Hu']].
          -- exists o, (TNode l r). split_and!; [by left| |done].
             eapply osub_mono; [done|]. apply sub_l. constructor.
          -- exists o, (TNode l r). split_and!; [by left| |done].
             eapply osub_mono; [done|]. apply sub_r. constructor.
          -- exists o, u'. split_and!; try done. by right.
      + intros u' [->|Hu]%elem_of_cons; [by right|]. apply (rinv_made _ HI). simpl. rewrite Hperm. by do 2 right.
      + intros u' [->|Hu]%elem_of_cons; [done|]. apply (rinv_pre _ HI). simpl. rewrite Hperm. by do 2 right.
  Qed.

  Lemma evs_rinv x y : rtc ev x y → toward y → rinv x → rinv y.
  Proof using Hinj Hdup Hfresh Hbranch Hjoin Hp0.
    induction 1 as [|x y z Hev Hevs IH]; [done|]. intros Ht HI. apply IH; [done|].
    eapply ev_rinv; [exact Hev| |done]. by eapply evs_toward.
  Qed.
  Lemma rinv_start : RC ex m0 X0 → rinv (m0, [], []).
  Proof using Hp0.
    intros HR. constructor; simpl; try done.
    - by rewrite app_nil_r.
    - by left.
    - by intros l ?%elem_of_nil.
    - by intros u ?%elem_of_nil.
    - by intros u ?%elem_of_nil.
  Qed.
End RcInsert.

(** A branch above a new leaf is new. *)
Lemma new_branch {n} (H : list bytes → arr n) (S : list bytes → Prop) (m0 : db n) (isnew : arr n → bytes → Prop) (l r : trie n) :
  inj_on H S → proper H S m0 → (∀ k e, isnew k e → m0 !! lloc H k e = None ∧ m0 !! dloc H k e = None) →
  has_new isnew (TNode l r) → Forall S (tpre H (TNode l r)) → m0 !! troot H (TNode l r) = None.
Proof.
  intros Hinj Hp0 Hfresh (k & e & Hnew & Hs') Hpre. apply eq_None_not_Some. intros [nd Hs].
  destruct (Hfresh k e Hnew) as [Hfl _].
  destruct (proper_stored H S Hinj m0 (TNode l r) nd Hp0 Hpre Hs) as (_ & Hst & _).
  apply (osub_stored H m0 (OT (TLeaf k e)) _ Hs') in Hst. simpl in Hst. rewrite Hfl in Hst.
  by destruct Hst.
Qed.

Section Join.
  Context {n : nat} (Hn : 0 < n).
  Implicit Types (t l r : trie n) (ks : list (arr n)) (old : option (trie n)).

  (** The tree an insertion builds never joins two subtries of the old tree:
      the branch between them would be one of the old tree that no key of the
      batch passed. *)
  Lemma no_join old ks t l r : owf old → ksorted ks → ks ≠ [] → ¬ hazard (has_key (omap old)) ks →
    twf t → (∀ z, z ∈ ks → z ∈ tkeys t) →
    l ∈ olddec old ks → r ∈ olddec old ks → ¬ subtrie (TNode l r) t.
  Proof.
    intros Hwf Hs Hne Hh Ht Hall Hl Hr Hsub.
    assert (twf (TNode l r)) as Hlr by (by eapply subtrie_twf).
    pose proof Hlr as (_ & _ & Hlt & _).
    assert (l ≠ r) as Hneq by (intros ->; by eapply klt_irrefl).
    pose proof (olddec_nodup Hn old ks Hwf Hs Hne (or_introl Hh)) as Hnd.
    destruct old as [t0|]; [|by apply elem_of_nil in Hl].
    assert (tmin r ∉ tkeys l) as Hrl.
    { intros Hin. apply Hneq. eapply (mjoin_keys_unique (olddec (Some t0) ks)); try done. apply tmin_in. }
    pose proof (clean_old t0 ks Hwf Hs Hh) as Hcl.
    assert (∃ z, z ∈ ks ∧ tsplit l r ≤ klcp z (tmin l)) as (z & Hz & Hzl).
    { destruct (wdec_parent _ ks t0 ks l Hn Hcl Hne Hl) as [->|(l1 & r1 & z & Hp & Hor & Hz & Hap)].
      - exfalso. apply Hrl. eapply subtrie_keys; [by eapply wdec_sub|]. apply tmin_in.
      - exists z. split; [done|]. simpl in Hap. apply not_lt in Hap.
        assert (twf (TNode l1 r1)) as Hwp by (by eapply subtrie_twf).
        assert (tmin l ∈ tkeys (TNode l1 r1)) as Ha.
        { rewrite tkeys_node, elem_of_app. destruct Hor as [->| ->]; [left|right]; apply tmin_in. }
        pose proof (twf_agree l1 r1 _ Hwp Ha) as Hal.
        assert (tsplit l1 r1 ≤ klcp z (tmin l)) as Hz1.
        { pose proof (klcp_ultra z (tmin l1) (tmin l)) as Hu. rewrite (klcp_sym (tmin l1) (tmin l)) in Hu. lia. }
        assert (tsplit l r ≤ tsplit l1 r1); [|lia].
        destruct (decide (tmin r ∈ tkeys (TNode l1 r1))) as [Hb|Hb].
        + rewrite tkeys_node, elem_of_app in Hb. unfold tsplit at 1.
          destruct Hor as [->| ->], Hb as [Hb|Hb]; try done.
          * destruct (twf_cross l1 r1 (tmin l1) (tmin r) Hwp (tmin_in _) Hb) as [-> _]. done.
          * destruct (twf_cross l1 r1 (tmin r) (tmin r1) Hwp Hb (tmin_in _)) as [He _].
            rewrite klcp_sym, He. done.
        + assert (tmin r ∈ tkeys t0) as Hrt.
          { eapply subtrie_keys; [by eapply wdec_sub|]. apply tmin_in. }
          pose proof (sub_apart t0 _ _ Hwf Hp Hrt Hb) as Hbb. simpl in Hbb.
          pose proof (klcp_ultra (tmin r) (tmin l) (tmin l1)) as Hu.
          unfold tsplit at 1. rewrite (klcp_sym (tmin l)). lia. }
    assert (z ∈ tkeys (TNode l r)) as Hin.
    { destruct (decide (z ∈ tkeys (TNode l r))) as [|Hni]; [done|].
      pose proof (sub_apart t _ z Ht Hsub (Hall z Hz) Hni) as Hap. simpl in Hap. lia. }
    rewrite tkeys_node, elem_of_app, !elem_of_tkeys in Hin.
    destruct Hin as [[e He]|[e He]].
    - destruct (proj1 (olddec_leaves Hn (Some t0) ks z e Hwf Hs Hne (or_introl Hh))) as [_ ?]; [|done]. eauto.
    - destruct (proj1 (olddec_leaves Hn (Some t0) ks z e Hwf Hs Hne (or_introl Hh))) as [_ ?]; [|done]. eauto.
  Qed.
End Join.
