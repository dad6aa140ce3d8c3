(** * Histories with removals *)
From Coq Require Import Strings.Byte NArith.
From stdpp Require Import prelude countable gmap sorting strings.
From Verif Require Import Model Bits Spec Util Trie Store Logic Build Evol Route Reads Insert Update Safe Get
  Hist Claims RefCount RcInsert RcRemove Total.

Local Open Scope nat_scope.

Section Live.
  Context {n : nat} (Hn : 0 < n) (B : backend n) {HB : BackendOk B} (H : list bytes → arr n).
  Context {V : Type} (enc : V → res bytes) (dec : bytes → res V) (Hcodec : codec_ok enc dec).
  Implicit Types (st : b_st B) (lg L : list (list bytes)) (k r : arr n) (ks : list (arr n)) (vs : list V).
  Implicit Types (M : gmap (arr n) V) (hs : list (arr n * gmap (arr n) V)) (t : trie n) (e : bytes).
  Notation Sof L := (λ x, x ∈ L).
  Let Henc : ∀ v, enc v ≠ Pan := enc_no_panic _ _ Hcodec.

  (** The trees of the live handles, and the counts they account for. *)
  Definition tree_of L (h : arr n * gmap (arr n) V) t : Prop :=
    h.1 = troot H t ∧ twf t ∧ Forall (Sof L) (tpre H t) ∧ encs enc h.2 (tmap t).
  Record linv (ex : Prop) L st hs hts : Prop := {
    linv_trees : Forall2 (tree_of L) hs hts;
    linv_proper : proper H (Sof L) (b_vis B st);
    linv_rc : RC ex (b_vis B st) (troot H <$> hts);
    linv_view : b_vis B st = bview st;
    linv_pend : bpend st = [];
  }.

  Lemma linv_roots ex L st hs hts : linv ex L st hs hts → hs.*1 = troot H <$> hts.
  Proof.
    intros [Ht _ _ _ _]. induction Ht as [|h t hs hts Hht _ IH]; [done|]. cbn. by rewrite IH, (proj1 Hht).
  Qed.
  Lemma linv_pre ex L st hs hts : linv ex L st hs hts → Forall (λ t, Forall (Sof L) (tpre H t)) hts.
  Proof. intros [Ht _ _ _ _]. induction Ht as [|h t hs hts Hht _ IH]; constructor; [apply Hht|done]. Qed.
  Lemma linv_stored ex L st hs hts t : inj_on H (Sof L) → linv ex L st hs hts → t ∈ hts →
    stored H (b_vis B st) t.
  Proof.
    intros Hinj Hi Ht. pose proof (linv_rc _ _ _ _ _ Hi) as (_ & HX & _).
    pose proof (linv_pre _ _ _ _ _ Hi) as Hpre. rewrite Forall_forall in Hpre.
    destruct (HX (troot H t)) as [nd Hnd]; [by apply elem_of_list_fmap_1|].
    by eapply (proper_stored H (Sof L) Hinj _ t nd (linv_proper _ _ _ _ _ Hi)); [apply Hpre|].
  Qed.
  Lemma linv_hinv ex L st hs hts : inj_on H (Sof L) → linv ex L st hs hts → hinv B H enc L st hs.
  Proof.
    intros Hinj Hi. split.
    - unfold Jp. rewrite <- (linv_view _ _ _ _ _ Hi). pose proof (linv_proper _ _ _ _ _ Hi).
      split_and!; try done. apply cle_refl.
    - apply Forall_forall. intros h Hh. apply elem_of_list_lookup in Hh as [i Hh].
      destruct (Forall2_lookup_l _ _ _ _ _ (linv_trees _ _ _ _ _ Hi) Hh) as (t & Ht & (?&?&?&?)).
      exists t. split_and!; try done. eapply linv_stored; eauto. by eapply elem_of_list_lookup_2.
  Qed.

  Lemma value_map_elem ks vs k v : value_map_of ks vs !! k = Some v → (k, v) ∈ zip ks vs.
  Proof.
    unfold value_map_of. rewrite foldl_insert_lookup.
    destruct (last (filter _ _)) as [p|] eqn:Hl; [|by rewrite lookup_empty].
    intros [= <-]. apply last_Some_elem_of, elem_of_list_filter in Hl as [Hk Hin]. by destruct p; simpl in *; subst.
  Qed.

  (** A pair whose leaf or value is stored belongs to a live handle. *)
  Lemma pair_alive L st hs hts k v e : inj_on H (Sof L) → linv True L st hs hts →
    enc v = Ok e → Forall (Sof L) (tpre H (TLeaf k e)) →
    is_Some (b_vis B st !! lloc H k e) ∨ is_Some (b_vis B st !! dloc H k e) →
    ∃ r M, (r, M) ∈ hs ∧ M !! k = Some v.
  Proof.
    intros Hinj Hi He Hpre Hs.
    assert (∃ t, t ∈ hts ∧ subtrie (TLeaf k e) t) as (t & Ht & Hsub).
    { destruct Hs as [Hs|Hs].
      - destruct (alive H (Sof L) Hinj True (b_vis B st) hts I (linv_proper _ _ _ _ _ Hi)
          (linv_rc _ _ _ _ _ Hi) (linv_pre _ _ _ _ _ Hi) (OT (TLeaf k e)) Hpre Hs) as (t & Ht & Hsub).
        by exists t.
      - destruct (alive H (Sof L) Hinj True (b_vis B st) hts I (linv_proper _ _ _ _ _ Hi)
          (linv_rc _ _ _ _ _ Hi) (linv_pre _ _ _ _ _ Hi) (OD k e)) as (t & Ht & Hsub); [|done|by exists t].
        apply Forall_cons in Hpre as [? _]. by repeat constructor. }
    apply elem_of_list_lookup in Ht as [i Ht].
    destruct (Forall2_lookup_r _ _ _ _ _ (linv_trees _ _ _ _ _ Hi) Ht) as ([r M] & Hh & (_ & Hwf & _ & Hen)).
    exists r, M. split; [by eapply elem_of_list_lookup_2|]. cbn [fst snd] in *.
    assert (tmap t !! k = Some e) as Htm.
    { apply tmap_lookup; [done|]. eapply subtrie_leaves; [exact Hsub|by left]. }
    specialize (Hen k). rewrite Htm in Hen. inversion Hen as [v' e' He' HM|]; subst.
    f_equal. pose proof (dec_enc _ _ Hcodec _ _ He). pose proof (dec_enc _ _ Hcodec _ _ He'). congruence.
  Qed.

  Theorem insert_live ex L st hs hts D prev M ks vs :
    inj_on H (Sof L) → linv ex L st hs hts → prev_holds hs prev M → benign M ks →
    (∀ k e, isnew enc (sort_keys ks) (value_map_of ks vs) k e → Forall (Sof L) (tpre H (TLeaf k e)) →
       b_vis B st !! lloc H k e = None ∧ b_vis B st !! dloc H k e = None) →
    wp B H (Sof L) (J H (Sof L) B (b_vis B st)) (insert enc D prev ks vs)
      (λ r st', ∃ t, linv ex L st' ((r, updated M ks vs) :: hs) (t :: hts)) (λ _ _, True) st.
  Proof.
    intros Hinj Hi Hp Hb Hfr.
    pose proof (linv_hinv _ _ _ _ _ Hinj Hi) as [HJ Hh]. apply J_rebase in HJ.
    unfold insert.
    destruct (Nat.eqb_spec (length ks) (length vs)) as [Hlen|Hlen]; [|simpl; auto]. simpl.
    destruct (Nat.eqb_spec (length ks) 0) as [Hz|Hne]; [done|].
    destruct (Nat.eqb_spec (length vs) 0) as [|Hne']; [lia|]. simpl.
    destruct (prev_old H enc L _ hs prev M Hh Hp) as (old & -> & Hok & Hwf & He).
    assert (¬ hazard (has_key (omap old)) (sort_keys ks)) as Hhz.
    { apply benign_sort. by apply (encs_benign enc M (omap old) ks He). }
    pose proof (or_introl Hhz : mild (omap old) (sort_keys ks)) as Hmd.
    assert (sort_keys ks ≠ []) as Hsne.
    { intros Hnil. apply Hne. rewrite <- sort_keys_length, Hnil. done. }
    eapply wp_mono; [| |apply (insert_sorted_wp Hn H (Sof L) Hinj B enc Henc D (sort_keys ks)
      (value_map_of ks vs) old st HJ Hok (sort_keys_sorted ks) Hsne)].
    - intros r st' (es & m' & P' & t & ts & -> & Hes & Hpre & Hev & HG & Hvis & Hpend & Hts & Hsort & Hlv & Hgd & Hdep).
      assert (length (sort_keys ks) = length es) as Hle by (by eapply Forall2_length).
      pose proof (result_nodup (sort_keys ks) es old Hle ts Hts Hsort) as Hnd.
      apply NoDup_app in Hnd as (Hnd & _ & _). rewrite sort_keys_perm in Hnd.
      assert (twf t) as Ht.
      { apply Hgd. eapply result_good; eauto. apply sort_keys_sorted. }
      assert (tmap t = list_to_map (zip (sort_keys ks) es) ∪ omap old) as Htm.
      { eapply result_map; eauto. apply sort_keys_sorted. }
      pose proof HG as (HJ' & Hv' & _ & Htok).
      apply Forall_cons in Htok as [(Hst & _ & Htpre) _]. cbn [fst snd] in *.
      assert (rinv H (Sof L) ex (b_vis B st) (isnew enc (sort_keys ks) (value_map_of ks vs))
        (λ p, p ∈ olddec old (sort_keys ks)) (troot H <$> hts) (m', P', [t])) as HR.
      { assert (∀ k e, isnew enc (sort_keys ks) (value_map_of ks vs) k e →
          b_vis B st !! lloc H k e = None ∧ b_vis B st !! dloc H k e = None) as Hfr'.
        { intros k e Hk. apply Hfr; [done|]. destruct Hk as (Hk & v & Hv & Hev').
          apply elem_of_list_lookup_1 in Hk as [i Hk].
          destruct (Forall2_lookup_l _ _ _ _ _ Hes Hk) as (e' & Hi' & He').
          apply encg_Some in He' as (v' & Hv'' & He').
          assert (e' = e) as -> by congruence.
          by apply (Forall2_lookup_lr _ _ _ _ _ _ Hpre Hk Hi'). }
        eapply (evs_rinv H (Sof L) Hinj ex (b_vis B st) _ _ (troot H <$> hts) t); [| | | | | exact Hev| |].
        - intros k e Hk Hdu. destruct (Hfr' k e Hk) as [Hno _]. cbn beta in Hdu. rewrite Hno in Hdu. by destruct Hdu.
        - intros _. done.
        - intros l r _ Hnew Hpr. eapply new_branch; try done. apply Hi.
        - intros l r Hl Hr. eapply (no_join Hn old (sort_keys ks)); try done.
          + apply sort_keys_sorted.
          + intros z Hz. apply tmap_has. rewrite Htm.
            apply lookup_union_is_Some. left. apply not_eq_None_Some.
            rewrite <- not_elem_of_list_to_map, fst_zip by lia. auto.
        - apply Hi.
        - apply toward_final. by apply twf_nodup.
        - rewrite <- (linv_view _ _ _ _ _ Hi), (linv_pend _ _ _ _ _ Hi). apply rinv_start; apply Hi. }
      exists t. constructor.
      + constructor; [|apply Hi]. split_and!; try done. cbn [fst snd].
        rewrite Htm. unfold updated. apply encs_union; [|done]. by apply encs_batch.
      + rewrite Hvis, Hv'. apply HR.
      + rewrite Hvis, Hv'. eapply RC_perm; [|apply HR]. cbn. by rewrite Permutation_app_comm.
      + done.
      + done.
    - done.
    - intros k Hk. apply value_map_some; [done|done|]. by apply elem_of_sort_keys.
  Qed.

  Lemma fresh_unstored L st hs hts ks vs : inj_on H (Sof L) → linv True L st hs hts → fresh_pairs hs ks vs →
    ∀ k e, isnew enc (sort_keys ks) (value_map_of ks vs) k e → Forall (Sof L) (tpre H (TLeaf k e)) →
       b_vis B st !! lloc H k e = None ∧ b_vis B st !! dloc H k e = None.
  Proof.
    intros Hinj Hi Hf k e (_ & v & Hv & He) Hpre. apply value_map_elem in Hv.
    assert (∀ r M, (r, M) ∈ hs → M !! k ≠ Some v) as Hno by (intros r M HM; by eapply Hf).
    split; apply eq_None_not_Some; intros Hs.
    - destruct (pair_alive L st hs hts k v e) as (r & M & Hin & HM); auto. by eapply Hno.
    - destruct (pair_alive L st hs hts k v e) as (r & M & Hin & HM); auto. by eapply Hno.
  Qed.

  (** ** Removal *)
  Lemma remove_no_hash fuel q st : hlog B H (remove_loop fuel q) st = [].
  Proof using.
    revert q st. induction fuel as [|fuel IH]; intros [|l q] st; cbn [remove_loop]; try done.
    unfold hlog in *. cbn [mbind prog_bind pbind get_node run].
    destruct (b_vis B st !! l) as [nd|]; [|apply IH].
    destruct (refs nd - 1 =? 0); [destruct (var nd)|]; cbn [mbind prog_bind pbind db_remove db_insert run]; apply IH.
  Qed.
  Lemma trees_perm L hs hts hs' : hs ≡ₚ hs' → Forall2 (tree_of L) hs hts →
    ∃ hts', hts ≡ₚ hts' ∧ Forall2 (tree_of L) hs' hts'.
  Proof using.
    intros Hp. revert hts. induction Hp as [|h hs hs' _ IH|h1 h2 hs|hs1 hs2 hs3 _ IH1 _ IH2]; intros hts Hf.
    - exists hts. done.
    - inversion Hf as [|? t ? hts0 Ht Hf0]; subst. destruct (IH hts0 Hf0) as (hts' & Hp' & Hf').
      exists (t :: hts'). split; [by constructor|by constructor].
    - inversion Hf as [|? t1 ? hts0 Ht1 Hf0]; subst. inversion Hf0 as [|? t2 ? hts1 Ht2 Hf1]; subst.
      exists (t2 :: t1 :: hts1). split; [apply Permutation_swap|]. constructor; [done|]. by constructor.
    - destruct (IH1 hts Hf) as (hts1 & Hp1 & Hf1). destruct (IH2 hts1 Hf1) as (hts2 & Hp2 & Hf2).
      exists hts2. split; [by etrans|done].
  Qed.
  Lemma linv_perm ex L st hs hts hs' : hs ≡ₚ hs' → linv ex L st hs hts → ∃ hts', linv ex L st hs' hts'.
  Proof using.
    intros Hp [Ht Hpr Hrc Hv Hpe]. destruct (trees_perm L hs hts hs' Hp Ht) as (hts' & Hp' & Ht').
    exists hts'. constructor; try done. eapply RC_perm; [|exact Hrc]. by rewrite Hp'.
  Qed.
  Lemma linv_less ex L st st' h hs t hts : linv ex L st (h :: hs) (t :: hts) →
    RC ex (b_vis B st') (troot H <$> hts) ∧ proper H (Sof L) (b_vis B st') ∧
      b_vis B st' = bview st' ∧ bpend st' = [] → linv ex L st' hs hts.
  Proof using.
    intros [Ht _ _ _ _] (HR & Hp & Hv & Hpe). apply Forall2_cons in Ht as [_ Ht]. by constructor.
  Qed.
  Lemma remove_live ex L st r M hs hts : inj_on H (Sof L) → linv ex L st ((r, M) :: hs) hts →
    ∃ t hts', hts = t :: hts' ∧ tree_of L (r, M) t ∧
      linv ex L (fin B H (remove_prog B st r) st) hs hts' ∧
      ∀ st', st' ∈ states B H (remove_prog B st r) st → linv False L (b_drop B st') hs hts'.
  Proof.
    intros Hinj Hi. pose proof (linv_trees _ _ _ _ _ Hi) as Ht.
    inversion Ht as [|? t ? hts' Htr Ht']; subst. exists t, hts'. split_and!; try done.
    - pose proof Htr as (Hr & Hwf & Hpre & _). simpl in Hr. subst r.
      pose proof (remove_wp H (Sof L) Hinj ex B (fmap (M := list) (troot H) hts') (b_vis B st) t st (λ _ _, False)
        (linv_rc _ _ _ _ _ Hi) (linv_proper _ _ _ _ _ Hi) (linv_view _ _ _ _ _ Hi) (linv_pend _ _ _ _ _ Hi)
        (cle_refl _) Hpre (twf_nodup t Hwf)) as Hw.
      specialize (Hw ltac:(eapply linv_stored; eauto; by left)).
      apply wp_run in Hw; [|unfold remove_prog, remove; rewrite remove_no_hash; by intros x ?%elem_of_nil].
      destruct (out B H _ st) as [[]|er| |]; try done.
      eapply linv_less; [exact Hi|]. destruct Hw as (?&?&?&?&_). done.
    - pose proof Htr as (Hr & Hwf & Hpre & _). simpl in Hr. subst r.
      pose proof (remove_wp H (Sof L) Hinj ex B (fmap (M := list) (troot H) hts') (b_vis B st) t st (λ _ _, False)
        (linv_rc _ _ _ _ _ Hi) (linv_proper _ _ _ _ _ Hi) (linv_view _ _ _ _ _ Hi) (linv_pend _ _ _ _ _ Hi)
        (cle_refl _) Hpre (twf_nodup t Hwf)) as Hw.
      specialize (Hw ltac:(eapply linv_stored; eauto; by left)).
      apply wp_states in Hw.
      + intros st' Hst'. rewrite Forall_forall in Hw. destruct (Hw st' Hst') as (Hp & HR & _).
        constructor; rewrite ?bvis_drop, ?bview_drop, ?bpend_drop; try done.
      + split_and!; [apply Hi| |apply cle_refl].
        apply (RC_less ex _ _ [troot H t]). eapply RC_perm; [|apply Hi]. cbn. by rewrite Permutation_app_comm.
      + unfold remove_prog, remove. rewrite remove_no_hash. by intros x ?%elem_of_nil.
  Qed.

  Theorem rhist_inv L st lg hs : inj_on H (Sof L) → rhist B H enc dec st lg hs →
    (∀ x, x ∈ lg → x ∈ L) → ∃ hts, linv True L st hs hts.
  Proof.
    intros Hinj Hh.
    induction Hh as [|st lg hs D prev M ks vs r Hh IH Hp Hb Hf Hout|st lg hs r M hs' Hh IH Hp
      |st lg hs c Hh IH Hsame|st lg hs c st' Hh IH Hst Hvis]; intros Hlg.
    - exists []. constructor; rewrite ?bvis_init, ?bview_init, ?bpend_init; try done.
      split_and!; [by intros l nd ?|by intros x ?%elem_of_nil|by intros l nd ?].
    - destruct IH as [hts Hi]; [intros; apply Hlg, elem_of_app; by left|].
      pose proof (insert_live True L st hs hts D prev M ks vs Hinj Hi Hp Hb
        (fresh_unstored L st hs hts ks vs Hinj Hi Hf)) as Hw.
      apply wp_run in Hw; [|intros; apply Hlg, elem_of_app; by right].
      rewrite Hout in Hw. destruct Hw as [t Hi']. eauto.
    - destruct (IH Hlg) as [hts Hi]. destruct (linv_perm _ _ _ _ _ _ Hp Hi) as [hts1 Hi1].
      destruct (remove_live True L st r M hs' hts1 Hinj Hi1) as (t & hts' & -> & _ & Hi' & _). eauto.
    - destruct IH as [hts Hi]; [intros; apply Hlg, elem_of_app; by left|]. eauto.
    - destruct IH as [hts Hi]; [intros; apply Hlg, elem_of_app; by left|]. exists hts.
      destruct Hi as [? ? ? ? ?]. constructor; rewrite ?bvis_drop, ?bview_drop, ?bpend_drop, ?Hvis; try done.
  Qed.

  (** ** What live handles serve *)
  Lemma handle_serves L st r M : handle_ok H enc L (b_vis B st) (r, M) → serves B H enc dec st r M.
  Proof.
    intros Hh. pose proof Hh as (t & Hr & Hwf & Hst & _ & He). simpl in *. subst r. split_and!.
    - by eapply handle_holds.
    - intros D ks HD Hb. pose proof (handle_get Hn B H enc dec Hcodec L st _ M D ks Hh) as Hg.
      destruct (out B H (get dec D (troot H t) ks) st) as [lm|er| |]; try done.
      + destruct Hg as (Hd & _ & Hex). exists lm. split; [done|]. intros k.
        destruct (decide (k ∈ ks)) as [Hin|Hni]; [by apply Hex|].
        destruct (lm !! k) eqn:Hk; [|done]. exfalso. apply Hni, Hd. by rewrite Hk.
      + lia.
    - intros D k v HD HM. pose proof (He k) as Hk. rewrite HM in Hk.
      inversion Hk as [v' e Hev Heq1 Heq2|]. subst v'.
      assert (tlookup t k = Some e) as Hl by (by rewrite tlookup_tmap).
      exists (reverse (tproof H t k)). split.
      + rewrite (gen_proof_run Hn) by (auto using twf_tpwf). rewrite Hl.
        pose proof (tneed_depth Hn t k). pose proof (twf_depth t Hwf).
        destruct (Nat.ltb_spec D (tneed t k)); [lia|done].
      + intros B' st'. by eapply verify_complete.
    - intros D k HM. pose proof (He k) as Hk. rewrite HM in Hk.
      assert (tmap t !! k = None) as Heq by (by inversion Hk).
      rewrite (gen_proof_run Hn) by (auto using twf_tpwf). rewrite tlookup_tmap, Heq by done.
      destruct (D <? tneed t k); eauto.
  Qed.
  Lemma linv_serves ex L st hs hts r M : inj_on H (Sof L) → linv ex L st hs hts → (r, M) ∈ hs →
    serves B H enc dec st r M.
  Proof.
    intros Hinj Hi Hin. destruct (linv_hinv _ _ _ _ _ Hinj Hi) as [_ Hf].
    rewrite Forall_forall in Hf. by eapply handle_serves, Hf.
  Qed.

  (** C20 *)
  Theorem live_serves st lg hs r M : rhist B H enc dec st lg hs → no_collision H lg → (r, M) ∈ hs →
    serves B H enc dec st r M.
  Proof.
    intros Hh Hc Hin. destruct (rhist_inv lg st lg hs Hc Hh ltac:(done)) as [hts Hi]. eapply linv_serves; [exact Hc|exact Hi|done].
  Qed.
  Theorem remove_others st lg hs r M hs' r' M' : rhist B H enc dec st lg hs → no_collision H lg →
    hs ≡ₚ (r, M) :: hs' → (r', M') ∈ hs' →
    serves B H enc dec st r' M' ∧ serves B H enc dec (fin B H (remove_prog B st r) st) r' M'.
  Proof.
    intros Hh Hc Hp Hin. split.
    - eapply live_serves; [exact Hh|exact Hc|]. rewrite Hp. by right.
    - eapply live_serves; [by eapply rhist_remove|exact Hc|done].
  Qed.
  (** C21 *)
  Theorem all_removed st lg : rhist B H enc dec st lg [] → no_collision H lg → b_vis B st = ∅.
  Proof.
    intros Hh Hc. destruct (rhist_inv lg st lg [] Hc Hh ltac:(done)) as [hts Hi].
    pose proof (linv_trees _ _ _ _ _ Hi) as Ht. inversion Ht; subst.
    apply (no_handles H _ Hc True); [done|apply Hi|apply Hi].
  Qed.
  (** C41 *)
  Theorem counts_exact st lg hs l nd : rhist B H enc dec st lg hs → no_collision H lg →
    b_vis B st !! l = Some nd →
    refs nd = pointers (b_vis B st) l + occurrences l hs.*1 ∧ 0 < refs nd.
  Proof.
    intros Hh Hc Hl. destruct (rhist_inv lg st lg hs Hc Hh ltac:(done)) as [hts Hi].
    rewrite (linv_roots _ _ _ _ _ Hi). destruct (linv_rc _ _ _ _ _ Hi) as (_ & _ & Hct).
    destruct (Hct _ _ Hl) as [Hle Hex]. destruct (Hex I) as [Hge Hpos]. split; lia.
  Qed.
  (** C30 *)
  Theorem remove_crash st lg hs r M hs' st' r' M' : rhist B H enc dec st lg hs → no_collision H lg →
    hs ≡ₚ (r, M) :: hs' → st' ∈ states B H (remove_prog B st r) st → (r', M') ∈ hs' →
    serves B H enc dec (b_drop B st') r' M'.
  Proof.
    intros Hh Hc Hp Hst Hin. destruct (rhist_inv lg st lg hs Hc Hh ltac:(done)) as [hts Hi].
    destruct (linv_perm _ _ _ _ _ _ Hp Hi) as [hts1 Hi1].
    destruct (remove_live True lg st r M hs' hts1 Hc Hi1) as (t & hts' & _ & _ & _ & Hcr).
    eapply linv_serves; [exact Hc|by apply Hcr|done].
  Qed.

  (** ** The database is a function of the live handles *)
  Lemma RC_det (S : list bytes → Prop) m m' (hts : list (trie n)) : inj_on H S →
    proper H S m → proper H S m' → Forall (λ t, Forall S (tpre H t)) hts →
    RC True m (troot H <$> hts) → RC True m' (troot H <$> hts) → m = m'.
  Proof using.
    clear Hn. intros Hinj Hp Hp' Hpre HR HR'.
    assert (∀ m m', proper H S m → proper H S m' → RC True m (troot H <$> hts) → RC True m' (troot H <$> hts) →
      ∀ l nd, m !! l = Some nd → ∃ nd', m' !! l = Some nd' ∧ var nd = var nd') as Hdir.
    { clear m m' Hp Hp' HR HR'. intros m m' Hp Hp' HR HR' l nd Hl.
      destruct (Hp _ _ Hl) as (o & Ho & _ & Hloc & Hvar & _).
      destruct (alive H S Hinj True m hts I Hp HR Hpre o Ho) as (t & Ht & Hsub); [rewrite Hloc; eauto|].
      destruct HR' as (_ & HX & _).
      destruct (HX (troot H t)) as [ndt Hndt]; [by apply elem_of_list_fmap_1|].
      rewrite Forall_forall in Hpre.
      destruct (proper_stored H S Hinj m' t ndt Hp' (Hpre t Ht) Hndt) as (_ & Hst & _).
      destruct (osub_stored H m' o t Hsub Hst) as [nd' Hnd'].
      destruct (proper_lookup H S Hinj m' o nd' Hp' Ho Hnd') as (Hv' & _).
      exists nd'. split; [congruence|congruence]. }
    assert (ceq m m') as Hceq.
    { intros l. destruct (m !! l) as [nd|] eqn:Hl.
      - destruct (Hdir m m' Hp Hp' HR HR' l nd Hl) as (nd' & -> & Hv). simpl. by rewrite Hv.
      - destruct (m' !! l) as [nd'|] eqn:Hl'; [|done].
        destruct (Hdir m' m Hp' Hp HR' HR l nd' Hl') as (nd & Hc & _). congruence. }
    apply map_eq. intros l. pose proof (Hceq l) as Hl.
    destruct (m !! l) as [[rf v]|] eqn:H1; destruct (m' !! l) as [[rf' v']|] eqn:H2; try done. simpl in Hl.
    destruct HR as (_ & _ & HR). destruct HR' as (_ & _ & HR').
    destruct (HR _ _ H1) as [Ha1 Hb1]. destruct (HR' _ _ H2) as [Ha2 Hb2].
    destruct (Hb1 I), (Hb2 I). rewrite (pointers_ext m m' l Hceq) in *. simpl in *.
    do 2 f_equal; [lia|congruence].
  Qed.

  Lemma trees_unique L hs hts hts' : inj_on H (Sof L) → Forall2 (tree_of L) hs hts →
    Forall2 (tree_of L) hs hts' → hts = hts'.
  Proof using.
    intros Hinj Hf. revert hts'. induction Hf as [|h t hs hts (Hr & _ & Hp & _) _ IH]; intros hts' Hf'.
    - by inversion Hf'.
    - inversion Hf' as [|? t' ? hts0 (Hr' & _ & Hp' & _) Hf0]; subst. f_equal; [|by apply IH].
      eapply (troot_inj H (Sof L)); try done. congruence.
  Qed.
  Lemma linv_det L st st' hs hs' hts hts' : inj_on H (Sof L) → linv True L st hs hts → linv True L st' hs' hts' →
    hs ≡ₚ hs' → b_vis B st = b_vis B st'.
  Proof.
    intros Hinj Hi Hi' Hp. destruct (linv_perm _ _ _ _ _ _ Hp Hi) as [hts1 Hi1].
    assert (hts1 = hts') as ->.
    { eapply (trees_unique L hs'); [exact Hinj|apply Hi1|apply Hi']. }
    eapply (RC_det (Sof L)); [exact Hinj|apply Hi1|apply Hi'| |apply Hi1|apply Hi'].
    by eapply linv_pre.
  Qed.
  (** C47 *)
  Theorem same_handles_same_store st st' lg lg' hs hs' :
    rhist B H enc dec st lg hs → rhist B H enc dec st' lg' hs' → no_collision H (lg ++ lg') →
    hs ≡ₚ hs' → b_vis B st = b_vis B st'.
  Proof.
    intros Hh Hh' Hc Hp.
    destruct (rhist_inv (lg ++ lg') st lg hs Hc Hh) as [hts Hi]; [intros; apply elem_of_app; by left|].
    destruct (rhist_inv (lg ++ lg') st' lg' hs' Hc Hh') as [hts' Hi']; [intros; apply elem_of_app; by right|].
    by eapply (linv_det (lg ++ lg')).
  Qed.
  (** C19 *)
  Theorem insert_remove st lg hs D prev M ks vs r :
    rhist B H enc dec st lg hs → prev_holds hs prev M → benign M ks → fresh_pairs hs ks vs →
    no_collision H (lg ++ hlog B H (insert enc D prev ks vs) st) →
    out B H (insert enc D prev ks vs) st = ROk r →
    b_vis B (fin B H (remove_prog B (fin B H (insert enc D prev ks vs) st) r)
                    (fin B H (insert enc D prev ks vs) st)) = b_vis B st.
  Proof.
    intros Hh Hp Hb Hf Hc Hout.
    pose proof (rhist_insert B H enc dec st lg hs D prev M ks vs r Hh Hp Hb Hf Hout) as Hh1.
    pose proof (rhist_remove B H enc dec _ _ _ r _ hs Hh1 ltac:(done)) as Hh2.
    eapply same_handles_same_store; [exact Hh2|exact Hh| |done].
    eapply no_collision_sub; [|exact Hc]. intros x. rewrite !elem_of_app. tauto.
  Qed.
  Theorem insert_remove_empty D ks vs r :
    no_collision H (hlog B H (insert enc D None ks vs) (b_init B)) →
    out B H (insert enc D None ks vs) (b_init B) = ROk r →
    b_vis B (fin B H (remove_prog B (fin B H (insert enc D None ks vs) (b_init B)) r)
                    (fin B H (insert enc D None ks vs) (b_init B))) = ∅.
  Proof.
    intros Hc Hout. rewrite (insert_remove (b_init B) [] [] D None ∅ ks vs r); try done.
    - apply bvis_init.
    - constructor.
    - apply benign_empty.
    - by intros r' M' k v ?%elem_of_nil.
  Qed.

  (** ** A removed root *)
  Lemma encs_sub M M' (t t' : trie n) : twf t → twf t' → encs enc M (tmap t) → encs enc M' (tmap t') →
    subtrie t t' → M ⊆ M'.
  Proof.
    intros Hw Hw' He He' Hsub. apply map_subseteq_spec. intros k v HM.
    specialize (He k). rewrite HM in He. inversion He as [v0 e Hev Heq Hte|]; subst. symmetry in Hte.
    apply tmap_lookup in Hte; [|done]. apply (subtrie_leaves t t') in Hte; [|done].
    apply tmap_lookup in Hte; [|done]. specialize (He' k). rewrite Hte in He'.
    inversion He' as [v' e' Hev' HM'|]; subst. f_equal.
    pose proof (dec_enc _ _ Hcodec _ _ Hev). pose proof (dec_enc _ _ Hcodec _ _ Hev'). congruence.
  Qed.
  Lemma removed_gone L st r M hs hts : inj_on H (Sof L) → linv True L st ((r, M) :: hs) hts →
    (∀ r' M', (r', M') ∈ hs → ¬ M ⊆ M') →
    b_vis B (fin B H (remove_prog B st r) st) !! r = None.
  Proof.
    intros Hinj Hi Hno. destruct (remove_live True L st r M hs hts Hinj Hi) as (t & hts' & -> & Ht & Hi' & _).
    destruct Ht as (Hr & Hwf & Hpre & He). simpl in *. subst r.
    apply eq_None_not_Some. intros Hs.
    destruct (alive H (Sof L) Hinj True _ hts' I (linv_proper _ _ _ _ _ Hi') (linv_rc _ _ _ _ _ Hi')
      (linv_pre _ _ _ _ _ Hi') (OT t) Hpre Hs) as (t' & Ht' & Hsub). simpl in Hsub.
    apply elem_of_list_lookup in Ht' as [i Ht'].
    destruct (Forall2_lookup_r _ _ _ _ _ (linv_trees _ _ _ _ _ Hi') Ht') as ([r' M'] & Hh & (_ & Hwf' & _ & He')).
    apply (Hno r' M'); [by eapply elem_of_list_lookup_2|].
    eapply (encs_sub M M' t t'); try done.
  Qed.
  Lemma insert_missing L st t D ks vs : inj_on H (Sof L) → Forall (Sof L) (tpre H t) →
    (∀ k v e, (k, v) ∈ zip ks vs → enc v = Ok e → t ≠ TLeaf k e) →
    b_vis B st !! troot H t = None →
    (∀ x, x ∈ hlog B H (insert enc D (Some (troot H t)) ks vs) st → x ∈ L) →
    ∃ er, out B H (insert enc D (Some (troot H t)) ks vs) st = RErr er.
  Proof.
    intros Hinj Hpre Hne Hr Hlog. unfold insert in *.
    destruct (Nat.eqb_spec (length ks) (length vs)) as [Hlen|Hlen]; simpl in *; [|eauto].
    destruct (Nat.eqb_spec (length ks) 0) as [Hz|Hne0]; simpl in *; [eauto|].
    destruct (Nat.eqb_spec (length vs) 0) as [|Hne']; simpl in *; [eauto|].
    assert (wp B H (Sof L) (λ _, True)
      (insert_sorted enc D (Some (troot H t)) (sort_keys ks) (value_map_of ks vs)) (λ _ _, False) (λ _ _, True) st) as Hw.
    { unfold insert_sorted. apply wp_bind.
      assert (∀ ks' st, (∀ k, k ∈ ks' → k ∈ ks) → b_vis B st !! troot H t = None →
        wp B H (Sof L) (λ _, True) (insert_leaves enc (value_map_of ks vs) ks')
          (λ _ st', b_vis B st' !! troot H t = None) (λ _ _, True) st) as Hins.
      { clear st Hr Hlog. induction ks' as [|k ks' IH]; intros st Hin Hr; [done|].
        cbn [insert_leaves]. apply wp_bind. unfold insert_leaves_one.
        destruct (value_map_some Hn ks vs k Hlen) as [v Hv]; [by apply Hin; left|].
        rewrite Hv. apply wp_bind. pose proof (Henc v).
        destruct (enc v) as [e|er|] eqn:Hev; [|done|done].
        cbn [lift mbind prog_bind pbind hash get_node db_insert wp mret prog_ret]. intros H1 H2.
        split_and!; [done|done|].
        apply wp_bind. eapply wp_mono; [| |apply IH].
        - intros ls st' Hst'. exact Hst'.
        - done.
        - intros k' Hk'. apply Hin. by right.
        - assert (Forall (Sof L) (tpre H (TLeaf k e))) as Hl by (by repeat constructor).
          apply (put_absent B); [|apply (put_absent B); [|done]].
          + intros Heq. apply (Hne k v e); [by apply value_map_elem|done|].
            symmetry. eapply (troot_inj H (Sof L)); try done.
          + intros Heq. change (H (data_in k e)) with (oloc H (OD k e)) in Heq.
            change (troot H t) with (oloc H (OT t)) in Heq.
            apply (oloc_inj H (Sof L) Hinj) in Heq; [done| |done]. by repeat constructor. }
      eapply wp_mono; [| |apply Hins].
      - intros ls st' Hst'. cbn beta. apply wp_bind. unfold generate_treerefs. apply wp_bind.
        cbn [get_node wp]. by rewrite Hst'.
      - done.
      - intros k Hk. by apply elem_of_sort_keys.
      - done. }
    apply wp_run in Hw; [|done]. destruct (out B H _ st) as [r|er| |]; try done. eauto.
  Qed.
  (** C23 *)
  Theorem removed_reads_empty st lg hs r M hs' : rhist B H enc dec st lg hs → no_collision H lg →
    hs ≡ₚ (r, M) :: hs' → (∀ r' M', (r', M') ∈ hs' → ¬ M ⊆ M') →
    let st' := fin B H (remove_prog B st r) st in
    (∀ D ks, ∃ lm, out B H (get dec D r ks) st' = ROk lm ∧
       ∀ k, lm !! k = if decide (k ∈ ks) then Some None else None) ∧
    (∀ D k, out B H (get_one dec D r k) st' = ROk None) ∧
    (∀ D k, ∃ er, out B H (generate_inclusion_proof D r k) st' = RErr er) ∧
    (∀ D ks vs, no_collision H (lg ++ hlog B H (insert enc D (Some r) ks vs) st') →
       (∀ k v, (k, v) ∈ zip ks vs → M ≠ {[k := v]}) →
       ∃ er, out B H (insert enc D (Some r) ks vs) st' = RErr er).
  Proof.
    intros Hh Hc Hp Hno st'.
    destruct (rhist_inv lg st lg hs Hc Hh ltac:(done)) as [hts Hi].
    destruct (linv_perm _ _ _ _ _ _ Hp Hi) as [hts1 Hi1].
    pose proof (removed_gone lg st r M hs' hts1 Hc Hi1 Hno) as Hr. fold st' in Hr.
    destruct (missing_root Hn B H enc dec Hcodec st' r Hr) as (H1 & H2 & H3 & _ & _).
    split_and!; try done. intros D ks vs Hc' HM.
    destruct (remove_live True lg st r M hs' hts1 Hc Hi1) as (t & hts' & _ & (Hroot & Hwf & Hpre & He) & _ & _).
    simpl in *. subst r. eapply (insert_missing (lg ++ hlog B H (insert enc D (Some (troot H t)) ks vs) st')).
    - exact Hc'.
    - eapply Forall_impl; [exact Hpre|]. intros x Hx. apply elem_of_app. by left.
    - intros k v e Hin Hev ->. apply (HM k v Hin). apply map_eq. intros k'. specialize (He k').
      change (tmap (TLeaf k e)) with (<[k := e]> (∅ : gmap (arr n) bytes)) in He.
      destruct (decide (k' = k)) as [->|Hne].
      + rewrite lookup_insert in He. rewrite lookup_singleton.
        inversion He as [v' e' Hev' HM'|]; subst. f_equal.
        pose proof (dec_enc _ _ Hcodec _ _ Hev). pose proof (dec_enc _ _ Hcodec _ _ Hev'). congruence.
      + rewrite lookup_insert_ne, lookup_empty in He by done. rewrite lookup_singleton_ne by done.
        by inversion He.
    - done.
    - intros x Hx. apply elem_of_app. by right.
  Qed.
  (** C42 *)
  Theorem remove_twice st lg hs r M hs' : rhist B H enc dec st lg hs → no_collision H lg →
    hs ≡ₚ (r, M) :: hs' → (∀ r' M', (r', M') ∈ hs' → ¬ M ⊆ M') →
    let st1 := fin B H (remove_prog B st r) st in
    let st2 := fin B H (remove_prog B st1 r) st1 in
    b_vis B st2 = b_vis B st1 ∧ ∀ r' M', (r', M') ∈ hs' → serves B H enc dec st2 r' M'.
  Proof.
    intros Hh Hc Hp Hno st1 st2.
    destruct (rhist_inv lg st lg hs Hc Hh ltac:(done)) as [hts Hi].
    destruct (linv_perm _ _ _ _ _ _ Hp Hi) as [hts1 Hi1].
    pose proof (removed_gone lg st r M hs' hts1 Hc Hi1 Hno) as Hr. fold st1 in Hr.
    destruct (remove_live True lg st r M hs' hts1 Hc Hi1) as (t & hts' & _ & _ & Hi' & _).
    destruct (remove_total B H st1 r) as (_ & _ & _ & Hfl). specialize (Hfl Hr). fold st2 in Hfl.
    assert (b_vis B st2 = b_vis B st1) as Hvis.
    { rewrite Hfl, bvis_flush. symmetry. apply Hi'. }
    split; [done|]. intros r' M' Hin. eapply (linv_serves True lg st2 hs' hts'); [exact Hc| |done].
    destruct Hi' as [Ht Hpr Hrc Hv Hpe]. fold st1 in Hpr, Hrc, Hv, Hpe.
    constructor; rewrite ?Hvis; try done; rewrite Hfl, ?bview_flush, ?bpend_flush; done.
  Qed.

  (** ** Progress and failures *)
  Lemma rhist_hinv st lg hs L : rhist B H enc dec st lg hs → no_collision H L → (∀ x, x ∈ lg → x ∈ L) →
    hinv B H enc L st hs.
  Proof.
    intros Hh Hc Hs. destruct (rhist_inv L st lg hs Hc Hh Hs) as [hts Hi]. by eapply (linv_hinv True).
  Qed.
  Theorem live_insert_total st lg hs D prev M ks vs : rhist B H enc dec st lg hs →
    no_collision H (lg ++ hlog B H (insert enc D prev ks vs) st) →
    prev_holds hs prev M → benign M ks → fresh_pairs hs ks vs →
    length ks = length vs → ks ≠ [] → NoDup ks → (∀ v, v ∈ vs → ∃ e, enc v = Ok e) →
    (prev = None ∨ 8 * n ≤ D) →
    ∃ r, out B H (insert enc D prev ks vs) st = ROk r ∧
      rhist B H enc dec (fin B H (insert enc D prev ks vs) st) (lg ++ hlog B H (insert enc D prev ks vs) st)
        ((r, updated M ks vs) :: hs) ∧
      serves B H enc dec (fin B H (insert enc D prev ks vs) st) r (updated M ks vs).
  Proof.
    intros Hh Hc Hp Hb Hf Hlen Hne Hnd Hen HD. set (L := lg ++ _) in *.
    assert (hinv B H enc L st hs) as Hi by (eapply rhist_hinv; eauto; intros; apply elem_of_app; by left).
    pose proof (insert_hist Hn B H enc dec Hcodec L st hs D prev M ks vs Hc Hi Hp (or_introl Hb)) as Hw.
    apply wp_run in Hw; [|intros; apply elem_of_app; by right].
    destruct (out B H (insert enc D prev ks vs) st) as [r|er| |] eqn:Hout; try done.
    - exists r. split; [done|].
      assert (rhist B H enc dec (fin B H (insert enc D prev ks vs) st) L ((r, updated M ks vs) :: hs)) as Hh'
        by (by eapply rhist_insert).
      split; [done|]. eapply live_serves; [exact Hh'|exact Hc|by left].
    - destruct Hw as (_ & [Hx|[Hx|[Hx|[(v & Hv & He)|(_ & Hs & Hx)]]]]); try done.
      + destruct (Hen v Hv). congruence.
      + destruct HD as [->|]; [by destruct Hs|lia].
  Qed.
  Theorem live_calls st lg hs c st' r M : rhist B H enc dec st lg hs →
    no_collision H (lg ++ hlog B H (exec enc dec c) st) → st' ∈ states B H (exec enc dec c) st → (r, M) ∈ hs →
    serves B H enc dec st' r M ∧ serves B H enc dec (b_drop B st') r M.
  Proof.
    intros Hh Hc Hst Hin. set (L := lg ++ _) in *.
    assert (hinv B H enc L st hs) as [HJ Hf] by (eapply rhist_hinv; eauto; intros; apply elem_of_app; by left).
    apply J_rebase in HJ.
    pose proof (exec_states Hn B H enc dec Hcodec L st c Hc HJ) as Hs.
    specialize (Hs ltac:(intros; apply elem_of_app; by right)). rewrite Forall_forall in Hs.
    apply Hs in Hst. rewrite Forall_forall in Hf. specialize (Hf _ Hin).
    split; apply (handle_serves L); (eapply handle_mono; [|exact Hf]).
    - apply Hst.
    - apply J_drop in Hst. apply Hst.
  Qed.
End Live.
