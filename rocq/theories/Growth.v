(** * What an insertion adds
    How many nodes an insertion creates, how deep it makes the tree, and what
    the stored branches say about the keys below them. *)
From Coq Require Import Strings.Byte NArith.
From stdpp Require Import prelude countable gmap sorting strings.
From Verif Require Import Model Bits Spec Util Trie Store Logic Reads Build Evol Route Insert Update Safe Get Hist
  RefCount RcInsert Claims.

Local Open Scope nat_scope.

(** ** The nodes on the path to a key *)
Section Path.
  Context {n : nat} (H : list bytes → arr n).
  Implicit Types (t u l r : trie n) (k : arr n) (e : bytes).

  Fixpoint pobjs t k : list (obj n) :=
    match t with
    | TLeaf k' e' => [OT t; OD k' e']
    | TNode l r => OT t :: pobjs (if bit k (tsplit l r) then r else l) k
    end.
  Lemma pobjs_length t k : length (pobjs t k) = length (tpath H t k) + 2.
  Proof.
    induction t as [|l IHl r IHr]; [done|]. simpl. destruct (bit k (tsplit l r)); simpl; lia.
  Qed.
  Lemma pobjs_sub u t k : subtrie u t → twf t → k ∈ tkeys u → OT u ∈ pobjs t k.
  Proof.
    induction 1 as [t|p l r Hs IH|p l r Hs IH]; intros Hwf Hk.
    - destruct t; by left.
    - cbn [pobjs]. right. pose proof Hwf as (Hl & Hr & _).
      destruct (twf_left l r k Hwf) as [_ ->]; [by eapply subtrie_keys|]. auto.
    - cbn [pobjs]. right. pose proof Hwf as (Hl & Hr & _).
      destruct (twf_right l r k Hwf) as (_ & _ & ->); [by eapply subtrie_keys|]. auto.
  Qed.
  Lemma pobjs_data t k e : subtrie (TLeaf k e) t → twf t → OD k e ∈ pobjs t k.
  Proof.
    remember (TLeaf k e) as u eqn:Hu. induction 1 as [t|p l r Hs IH|p l r Hs IH]; intros Hwf.
    - subst t. right. by left.
    - cbn [pobjs]. right. pose proof Hwf as (Hl & Hr & _).
      destruct (twf_left l r k Hwf) as [_ ->]; [eapply subtrie_keys; [done|]; subst p; by left|]. auto.
    - cbn [pobjs]. right. pose proof Hwf as (Hl & Hr & _).
      destruct (twf_right l r k Hwf) as (_ & _ & ->); [eapply subtrie_keys; [done|]; subst p; by left|]. auto.
  Qed.
End Path.

(** ** The locations an insertion creates *)
Section Made.
  Context {n : nat} (H : list bytes → arr n) (S : list bytes → Prop).
  Context {fl : arr n → nat} (m0 : db n) (ks : list (arr n)).
  Context (isnew : arr n → bytes → Prop) (piece : trie n → Prop) (dup : arr n → bytes → Prop).
  Context (t : trie n) (Hwf : twf t) (Hnew : ∀ k e, isnew k e → k ∈ ks).
  Context (Hjoin : ∀ l r, piece l → piece r → ¬ subtrie (TNode l r) t).
  Implicit Types (x y : ist (n := n)) (u : trie n) (k : arr n) (e : bytes).
  Notation ev := (ev H S fl isnew piece dup).

  Definition heading x : Prop := ∀ u, u ∈ x.2 → subtrie u t.
  Definition made x : Prop :=
    (∀ l, is_Some (x.1.1 !! l) → is_Some (m0 !! l) ∨ ∃ k o, k ∈ ks ∧ o ∈ pobjs t k ∧ oloc H o = l) ∧
    (∀ u, u ∈ x.2 → piece u ∨ ∃ k, k ∈ ks ∧ k ∈ tkeys u).

  Lemma ev_heading x y : ev x y → heading y → heading x.
  Proof using.
    intros Hev Hs. inversion Hev as [m P ts k e rd rl|m P ts u rf|m P ts k e rf|m P ts l r ts' Hp Hlt];
      subst; unfold heading in *; simpl in *.
    - intros u Hu. apply Hs. by right.
    - intros u' Hu. apply Hs. by right.
    - done.
    - pose proof (Hs (TNode l r) ltac:(by left)) as Hn. intros u. rewrite Hp, !elem_of_cons.
      intros [->|[->|Hu]].
      + eapply subtrie_trans; [|exact Hn]. apply sub_l. constructor.
      + eapply subtrie_trans; [|exact Hn]. apply sub_r. constructor.
      + apply Hs. by right.
  Qed.
  Lemma evs_heading x y : rtc ev x y → heading y → heading x.
  Proof using. induction 1 as [|x y z Hev _ IH]; [done|]. intros Hz. eapply ev_heading; eauto. Qed.

  Lemma stored_some m u : stored H m u → is_Some (m !! troot H u).
  Proof using. intros Hst%stored_root. apply has_lookup in Hst as [rf ->]. eauto. Qed.

  Lemma ev_made x y : ev x y → heading y → made x → made y.
  Proof using Hwf Hnew Hjoin.
    intros Hev Hy [H1 H2].
    inversion Hev as [m P ts k e rd rl Hk|m P ts u rf Hu Hst|m P ts k e rf Hk Hd Hst|m P ts l r ts' Hp Hlt];
      subst; unfold made, heading in *; simpl in *.
    - pose proof (Hy _ ltac:(by left)) as Hsub. split.
      + intros lc. rewrite !lookup_insert_is_Some. intros [<-|[_ [<-|[_ Hl]]]].
        * right. exists k, (OT (TLeaf k e)). split_and!; [by eapply Hnew| |done].
          apply pobjs_sub; [done|done|by left].
        * right. exists k, (OD k e). split_and!; [by eapply Hnew| |done]. by apply pobjs_data.
        * auto.
      + intros u [->|Hu]%elem_of_cons; [|auto]. right. exists k. split; [by eapply Hnew|by left].
    - split.
      + intros lc. rewrite lookup_insert_is_Some. intros [<-|[_ Hl]]; [|auto]. by apply H1, stored_some.
      + intros u' [->|Hu']%elem_of_cons; auto.
    - split; [|done]. intros lc. rewrite lookup_insert_is_Some. intros [<-|[_ Hl]]; [|auto].
      by apply H1, (stored_some m (TLeaf k e)).
    - pose proof (Hy _ ltac:(by left)) as Hsub.
      assert (∃ k, k ∈ ks ∧ k ∈ tkeys (TNode l r)) as (k & Hk & Hkin).
      { destruct (H2 l) as [Hl|(k & Hk & Hin)]; [rewrite Hp; by left| |].
        - destruct (H2 r) as [Hr|(k & Hk & Hin)]; [rewrite Hp; right; by left| |].
          + by destruct (Hjoin l r Hl Hr).
          + exists k. split; [done|]. rewrite tkeys_node, elem_of_app. by right.
        - exists k. split; [done|]. rewrite tkeys_node, elem_of_app. by left. }
      split.
      + intros lc. rewrite lookup_insert_is_Some. intros [<-|[_ Hl]]; [|auto].
        right. exists k, (OT (TNode l r)). split_and!; [done| |done]. by apply pobjs_sub.
      + intros u [->|Hu]%elem_of_cons; [right; eauto|]. apply H2. rewrite Hp. by do 2 right.
  Qed.
  Lemma evs_made x y : rtc ev x y → heading y → made x → made y.
  Proof using Hwf Hnew Hjoin.
    induction 1 as [|x y z Hev Hevs IH]; [done|]. intros Hz Hx. apply IH; [done|].
    eapply ev_made; [exact Hev| |done]. by eapply evs_heading.
  Qed.
End Made.

Lemma size_list_bound {n A} (m0 m' : gmap (arr n) A) (L : list (arr n)) :
  (∀ l, is_Some (m' !! l) → is_Some (m0 !! l) ∨ l ∈ L) → size m' ≤ size m0 + length L.
Proof.
  intros Hin. rewrite <- !size_dom.
  assert (dom m' ⊆ dom m0 ∪ (list_to_set L : gset (arr n))) as Hsub.
  { intros l Hl. apply elem_of_dom in Hl. rewrite elem_of_union, elem_of_dom, elem_of_list_to_set. auto. }
  apply subseteq_size in Hsub.
  assert (size (list_to_set L : gset (arr n)) ≤ length L) as Hs.
  { clear. induction L as [|l L IH]; simpl; [done|].
    rewrite size_union_alt, size_singleton.
    pose proof (subseteq_size ((list_to_set L : gset (arr n)) ∖ {[ l ]}) (list_to_set L) ltac:(set_solver)). lia. }
  etrans; [exact Hsub|]. rewrite size_union_alt.
  pose proof (subseteq_size ((list_to_set L : gset (arr n)) ∖ dom m0) (list_to_set L) ltac:(set_solver)). lia.
Qed.

Section Bound.
  Context {n : nat} (Hn : 0 < n) (B : backend n) {HB : BackendOk B} (H : list bytes → arr n).
  Context {V : Type} (enc : V → res bytes) (dec : bytes → res V) (Hcodec : codec_ok enc dec).
  Let Henc : ∀ v, enc v ≠ Pan := enc_no_panic _ _ Hcodec.
  Notation Sof L := (λ x : list bytes, x ∈ L).

  Lemma insert_adds L st hs D prev M ks vs : inj_on H (Sof L) → hinv B H enc L st hs →
    prev_holds hs prev M → benign M ks →
    wp B H (Sof L) (J H (Sof L) B (b_vis B st)) (insert enc D prev ks vs)
      (λ r st', ∃ t, r = troot H t ∧ twf t ∧ stored H (b_vis B st') t ∧
         (∀ k, k ∈ ks → k ∈ tkeys t) ∧
         ∀ l, is_Some (b_vis B st' !! l) →
           is_Some (bview st !! l) ∨ ∃ k o, k ∈ ks ∧ o ∈ pobjs t k ∧ oloc H o = l)
      (λ _ _, True) st.
  Proof using Hn Hcodec.
    intros Hinj Hi Hp Hb. pose proof Hi as [HJ Hh]. apply J_rebase in HJ.
    unfold insert.
    destruct (Nat.eqb_spec (length ks) (length vs)) as [Hlen|Hlen]; [|simpl; auto]. simpl.
    destruct (Nat.eqb_spec (length ks) 0) as [Hz|Hne]; [done|].
    destruct (Nat.eqb_spec (length vs) 0) as [|Hne']; [lia|]. simpl.
    destruct (prev_old H enc L _ hs prev M Hh Hp) as (old & -> & Hok & Hwf & He).
    assert (¬ hazard (has_key (omap old)) (sort_keys ks)) as Hhz.
    { apply benign_sort. by apply (encs_benign enc M (omap old) ks He). }
    pose proof (or_introl Hhz : mild (omap old) (sort_keys ks)) as Hmd.
    assert (sort_keys ks ≠ []) as Hsne.
    { intros Hnil. apply Hne. rewrite <- sort_keys_length, Hnil. done. }
    eapply wp_mono; [| |apply (insert_sorted_wp Hn H (Sof L) Hinj B enc Henc D (sort_keys ks)
      (value_map_of ks vs) old st HJ Hok (sort_keys_sorted ks) Hsne)].
    - intros r st' (es & m' & P' & t & ts & -> & Hes & Hpre & Hev & HG & Hvis & Hpend & Hts & Hsort & Hlv & Hgd & Hdep).
      assert (length (sort_keys ks) = length es) as Hle by (by eapply Forall2_length).
      assert (twf t) as Ht.
      { apply Hgd. eapply result_good; eauto. apply sort_keys_sorted. }
      assert (tmap t = list_to_map (zip (sort_keys ks) es) ∪ omap old) as Htm.
      { eapply result_map; eauto. apply sort_keys_sorted. }
      assert (∀ z, z ∈ sort_keys ks → z ∈ tkeys t) as Hall.
      { intros z Hz. apply tmap_has. rewrite Htm.
        apply lookup_union_is_Some. left. apply not_eq_None_Some.
        rewrite <- not_elem_of_list_to_map, fst_zip by lia. auto. }
      pose proof HG as (_ & Hv' & _ & Htok). apply Forall_cons in Htok as [(Hst & _) _]. cbn [fst snd] in *.
      exists t. split_and!; [done|done|by rewrite Hvis, Hv'| |].
      { intros k Hk. apply Hall. by apply elem_of_sort_keys. }
      rewrite Hvis, Hv'.
      assert (made H (bview st) ks (λ p, p ∈ olddec old (sort_keys ks)) t (m', P', [t])) as [Hm _]; [|exact Hm].
      assert (∀ k e, isnew enc (sort_keys ks) (value_map_of ks vs) k e → k ∈ ks) as Hnew.
      { intros k e (Hk & _). by apply elem_of_sort_keys. }
      assert (∀ l r, l ∈ olddec old (sort_keys ks) → r ∈ olddec old (sort_keys ks) → ¬ subtrie (TNode l r) t) as Hj.
      { intros l r Hl Hr. eapply (no_join Hn old (sort_keys ks)); try done. apply sort_keys_sorted. }
      apply (evs_made H (Sof L) (bview st) ks _ _ _ t Ht Hnew Hj _ _ Hev).
      + intros u ->%elem_of_list_singleton. constructor.
      + split; simpl; [by left|by intros u ?%elem_of_nil].
    - done.
    - intros k Hk. apply value_map_some; [done|done|]. by apply elem_of_sort_keys.
  Qed.

  (** C28 *)
  Theorem insert_keeps st lg hs D prev ks vs st' : hist B H enc dec st lg hs →
    no_collision H (lg ++ hlog B H (insert enc D prev ks vs) st) →
    st' ∈ states B H (insert enc D prev ks vs) st →
    ∀ l nd, b_vis B st !! l = Some nd → ∃ rf, b_vis B st' !! l = Some (Node rf (var nd)).
  Proof using Hn Hcodec HB.
    intros Hh Hc Hst l nd Hl. set (L := lg ++ _) in *.
    assert (hinv B H enc L st hs) as [HJ _] by (eapply hist_hinv; eauto; intros; apply elem_of_app; by left).
    pose proof (insert_safe Hn H _ Hc B enc Henc D (b_vis B st) prev ks vs st ltac:(by eapply J_rebase)) as Hw.
    eapply wp_states in Hw; [|by eapply J_rebase|intros; apply elem_of_app; by right].
    rewrite Forall_forall in Hw. destruct (Hw _ Hst) as (_ & _ & _ & Hcle).
    apply has_lookup, Hcle, has_lookup. destruct nd as [rf v]. eauto.
  Qed.
  Theorem insert_size st lg hs D prev M ks vs r D' ps : hist B H enc dec st lg hs →
    no_collision H (lg ++ hlog B H (insert enc D prev ks vs) st) →
    prev_holds hs prev M → benign M ks →
    out B H (insert enc D prev ks vs) st = ROk r →
    let st' := fin B H (insert enc D prev ks vs) st in
    Forall2 (λ k p, out B H (generate_inclusion_proof D' r k) st' = ROk p) ks ps →
    size (b_vis B st') ≤ size (b_vis B (b_flush B st)) + sum_list_with length ps.
  Proof using Hn Hcodec HB.
    intros Hh Hc Hp Hb Hout st' Hps. set (L := lg ++ _) in *.
    assert (hinv B H enc L st hs) as Hi by (eapply hist_hinv; eauto; intros; apply elem_of_app; by left).
    pose proof (insert_adds L st hs D prev M ks vs Hc Hi Hp Hb) as Hw.
    apply wp_run in Hw; [|intros; apply elem_of_app; by right]. rewrite Hout in Hw. fold st' in Hw.
    destruct Hw as (t & -> & Ht & Hst & _ & Hm).
    rewrite bvis_flush.
    assert (sum_list_with length ps = length (mjoin ((λ k, oloc H <$> pobjs t k) <$> ks))) as ->.
    { assert (Forall2 (λ k p, length p = length (pobjs t k)) ks ps) as Hl.
      { eapply Forall2_impl; [exact Hps|]. intros k p Hkp. cbv beta in Hkp.
        rewrite (gen_proof_run Hn B H D' k t st' Hst (twf_tpwf t Ht)) in Hkp.
        destruct (D' <? tneed t k); [done|]. destruct (tlookup t k) as [e|] eqn:Hk; [|done].
        injection Hkp as <-. rewrite reverse_length, (tproof_path H t k e Hk), app_length, (pobjs_length H). done. }
      clear -Hl. induction Hl as [|k p ks ps Hkp _ IH]; [done|].
      change (length p + sum_list_with length ps =
        length ((oloc H <$> pobjs t k) ++ mjoin ((λ k, oloc H <$> pobjs t k) <$> ks))).
      rewrite app_length, fmap_length. lia. }
    apply size_list_bound. intros l Hl. destruct (Hm l Hl) as [?|(k & o & Hk & Ho & <-)]; [by left|].
    right. apply elem_of_list_join. exists (oloc H <$> pobjs t k). split; [by apply elem_of_list_fmap_1|].
    apply elem_of_list_fmap. eauto.
  Qed.
End Bound.
