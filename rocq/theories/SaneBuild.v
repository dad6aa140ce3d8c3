(** * No panics in builds without overflow checks, whatever the counters of the nodes *)
From Coq Require Import Strings.Byte NArith.
From stdpp Require Import prelude countable gmap sorting strings.
From Verif Require Import Model Spec Bits Util Trie Store Logic Build Safe Hist Claims Total Work Struct Counts Machine MachineProofs MachineTotal Wild Calm Sane.

Local Open Scope nat_scope.

Section SaneBuild.
  Context (M : build) (HM : wraps M = true) {n : nat} (Hn : 0 < n) (Hbits : fits (wptr M) (8 * n)).
  Context {V : Type} (enc : V → res bytes) (dec : bytes → res V) (Hcodec : codec_ok enc dec).
  Implicit Types (k : arr n) (ks : list (arr n)).
  Notation in_range := Sane.in_range.
  Notation unit_refs := (Forall (λ r : tref n, tcount r = 1)).

  Lemma m_add_np w a b : m_add M w a b ≠ Pan.
  Proof using HM. unfold m_add, m_wrap. rewrite HM. by destruct (fitsb _ _). Qed.
  Lemma m_bump_np (o : option (node n)) : m_bump M o ≠ Pan.
  Proof using HM. destruct o; [apply m_add_np|done]. Qed.
  Lemma m_calc_np ks k : m_calc_min_split_index M ks k ≠ Pan.
  Proof using Hn Hbits. rewrite m_calc_min_ok by done. apply calc_min_calm. Qed.
  Lemma m_check_np ks s bk m : fits (wptr M) (length ks) → s ≤ 8 * n → m_check_descendants M ks s bk m ≠ Pan.
  Proof using Hn Hbits. intros Hf Hs. rewrite m_check_ok by done. by apply check_descendants_calm. Qed.
  Lemma m_check_length ks s bk m ds : fits (wptr M) (length ks) → m_check_descendants M ks s bk m = Ok ds → length ds ≤ length ks.
  Proof using Hn Hbits. intros Hf. rewrite m_check_ok by done. apply check_descendants_length. Qed.

  Lemma m_get_one_np D fuel k d fl l : fits (wptr M) 1 → np (m_get_one_loop M dec D fuel k d fl l) (λ _, True).
  Proof using HM Hn Hbits Hcodec.
    intros H1. revert d fl l. induction fuel as [|fuel IH]; intros d fl l; [done|]. cbn [m_get_one_loop].
    destruct (D <? d); [done|]. apply np_bind, np_lift; [apply m_add_np|]. intros d1 _.
    cbn [get_node mbind prog_bind pbind np]. intros [[rf v]|] Ho; [|done].
    specialize (Ho _ eq_refl). cbn [var]. destruct v as [c zero one si bk|lk ld|e].
    - destruct fl; [done|]. apply np_bind, np_lift; [apply m_calc_np|]. intros m _.
      apply np_bind, np_lift; [by apply m_check_np|]. intros [|d0 ds] _; [done|].
      apply np_bind, np_lift; [apply choose_zero_calm|]. intros z _. apply IH.
    - destruct fl; [done|]. destruct (decide (lk = k)); [apply IH|done].
    - destruct (negb fl); [done|]. apply np_bind, np_lift; [apply (dec_no_panic _ _ Hcodec)|done].
  Qed.
  Lemma m_gen_proof_np D fuel k d fl acc l : fits (wptr M) 1 → np (m_gen_proof_loop M D fuel k d fl acc l) (λ _, True).
  Proof using HM Hn Hbits.
    intros H1. revert d fl acc l. induction fuel as [|fuel IH]; intros d fl acc l; [done|]. cbn [m_gen_proof_loop].
    destruct (D <? d); [done|]. apply np_bind, np_lift; [apply m_add_np|]. intros d1 _.
    cbn [get_node mbind prog_bind pbind np]. intros [[rf v]|] Ho; [|done].
    specialize (Ho _ eq_refl). cbn [var]. destruct v as [c zero one si bk|lk ld|e].
    - destruct fl; [done|]. apply np_bind, np_lift; [apply m_calc_np|]. intros m _.
      apply np_bind, np_lift; [by apply m_check_np|]. intros [|d0 ds] _; [done|].
      apply np_bind, np_lift; [apply choose_zero_calm|]. intros [] _; apply IH.
    - destruct fl; [done|]. destruct (decide (lk = k)); [|done]. cbn. intros h. apply IH.
    - by destruct (negb fl).
  Qed.
  Definition mcell (c : cell (n := n)) : Prop := in_range (cnode c) ∧ fits (wptr M) (length (ckeys c)).
  Lemma m_push_np q d l ks : Forall mcell q → fits (wptr M) (length ks) → np (m_push_cell_if_node M q d l ks) (Forall mcell).
  Proof using HM.
    intros Hq Hf. unfold m_push_cell_if_node. cbn [get_node mbind prog_bind pbind np]. intros [nd|] Ho; [|done].
    destruct ks as [|k ks]; [done|]. apply np_bind, np_lift; [apply m_add_np|]. intros d1 _.
    constructor; [|done]. split; [by apply Ho|done].
  Qed.
  Lemma m_get_loop_np D fuel keys lm q : Forall mcell q → np (m_get_loop M dec D fuel keys lm q) (λ _, True).
  Proof using HM Hn Hbits Hcodec.
    revert lm q. induction fuel as [|fuel IH]; intros lm [|c q] Hq; try done.
    apply Forall_cons in Hq as [[Hc Hf] Hq]. cbn [m_get_loop].
    destruct (D <? cdepth c); [done|].
    destruct c as [lc cks [rf v] dp]. cbn [cloc cnode ckeys cdepth var] in *.
    destruct v as [c zero one si bk|lk ld|e]; [| |done].
    - apply np_bind, np_lift; [apply m_calc_np|]. intros m _.
      apply np_bind, np_lift; [by apply m_check_np|]. intros [|d0 ds] Hds; [by apply IH|].
      apply m_check_length in Hds; [|done].
      apply np_bind, np_lift; [apply split_pairs_calm|]. intros zo Hzo.
      assert (length zo.1 ≤ length cks ∧ length zo.2 ≤ length cks) as [Hz0 Hz1].
      { destruct (split_pairs_length _ _ _ Hzo) as [?|[_ ->]]; cbn in *; lia. }
      apply np_bind. eapply np_mono; [|apply m_push_np; [done|by eapply fits_le]]. intros q' Hq'.
      apply np_bind. eapply np_mono; [|apply m_push_np; [done|by eapply fits_le]]. intros q'' Hq''. by apply IH.
    - cbn [get_node mbind prog_bind pbind np]. intros [[rf' [| |e]]|] _; try done. cbn [var].
      apply np_bind, np_lift; [apply (dec_no_panic _ _ Hcodec)|]. intros v _.
      destruct (binary_search keys lk) as [i|] eqn:Hb; [|by apply IH].
      apply np_bind, np_lift; [by eapply binary_search_calm|]. intros k _. by apply IH.
  Qed.
  Lemma m_get_np D r ks : fits (wptr M) (length ks) → np (m_get M dec D r ks) (λ _, True).
  Proof using HM Hn Hbits Hcodec.
    intros Hf. destruct (decide (ks = [])) as [->|Hne]; [done|].
    assert (∀ A (a b : A), match ks with [] => a | _ => b end = b) as Hm by (by destruct ks).
    unfold m_get. rewrite Hm. clear Hm. cbn [get_node mbind prog_bind pbind np]. intros [nd|] Ho; [|done].
    apply m_get_loop_np. constructor; [|done]. split; [by apply Ho|]. cbn. by rewrite sort_keys_length.
  Qed.

  (** Insertions *)
  Lemma m_insert_leaves_np vm ks : (∀ k, k ∈ ks → is_Some (vm !! k)) → np (m_insert_leaves M enc vm ks) (λ _, True).
  Proof using HM Hcodec.
    induction ks as [|k ks IH]; intros Hk; [done|]. cbn [m_insert_leaves]. apply np_bind.
    unfold m_insert_leaves_one. destruct (Hk k) as [v ->]; [by left|].
    apply np_bind, np_lift; [apply (enc_no_panic _ _ Hcodec)|]. intros e _.
    cbn [hash get_node mbind prog_bind pbind np]. intros h1 h2 od _.
    apply np_bind, np_lift; [apply m_bump_np|]. intros rd _. cbn [get_node mbind prog_bind pbind np]. intros ol _.
    apply np_bind, np_lift; [apply m_bump_np|]. intros rl _.
    cbn [db_insert mbind prog_bind pbind mret prog_ret np].
    split; [done|]. split; [done|].
    apply np_bind. eapply np_mono; [|apply IH; intros k' ?; apply Hk; by right]. done.
  Qed.
  Lemma m_insert_leaf_np (l : arr n) : np (m_insert_leaf M l) (λ _, True).
  Proof using HM.
    unfold m_insert_leaf. cbn [get_node mbind prog_bind pbind np]. intros [nd|] Ho; [|done].
    apply np_bind, np_lift; [apply m_add_np|]. intros rf _. cbn. split; [|done]. exact (Ho nd eq_refl).
  Qed.
  Definition mpart (r : tref n + cell (n := n)) : Prop := match r with inl r => tcount r = 1 | inr c => mcell c end.
  Lemma m_split_nodes_np d b ks : fits (wptr M) (length ks) → np (m_split_nodes M (n := n) d b ks) mpart.
  Proof using HM.
    intros Hf. unfold m_split_nodes. cbn [get_node mbind prog_bind pbind np]. intros [[rf v]|] Ho; [|done].
    specialize (Ho _ eq_refl). destruct ks as [|k ks].
    - apply np_bind, np_lift; [apply m_add_np|]. intros rf' _. cbn [var]. by destruct v.
    - apply np_bind, np_lift; [apply m_add_np|]. intros d' _. by split.
  Qed.
  Lemma m_push_split_np r acc q : mpart r → unit_refs acc → Forall mcell q →
    unit_refs (push_split r acc q).1 ∧ length (push_split r acc q).1 ≤ length acc + 1 ∧ Forall mcell (push_split r acc q).2.
  Proof using Hn Hbits.
    intros Hr Ha Hq. destruct r; cbn in *; split_and!; try done; try lia.
    - apply Forall_app. split; [done|]. by repeat constructor.
    - rewrite app_length. cbn. lia.
    - by constructor.
  Qed.
  Lemma m_traverse_np D fuel km acc q : Forall mcell q → unit_refs acc →
    np (m_traverse_tree M D fuel km acc q) (λ rs, unit_refs rs ∧ length rs ≤ length acc + 2 * fuel).
  Proof using HM Hn Hbits.
    assert (∀ (acc : list (tref n)) r, tcount r = 1 → unit_refs acc → unit_refs (acc ++ [r])) as Hsn.
    { intros acc0 r Hr Ha. apply Forall_app. split; [done|]. by repeat constructor. }
    revert acc q. induction fuel as [|fuel IH]; intros acc [|c q] Hq Ha; try done; try (cbn; split; [done|lia]).
    apply Forall_cons in Hq as [[Hc Hf] Hq]. cbn [m_traverse_tree].
    destruct (D <? cdepth c); [done|].
    destruct c as [lc cks [rf v] dp]. cbn [cloc cnode ckeys cdepth var refs] in *.
    assert (∀ acc' q', length acc' ≤ length acc + 2 → unit_refs acc' → Forall mcell q' →
      np (m_traverse_tree M D fuel km acc' q') (λ rs, unit_refs rs ∧ length rs ≤ length acc + 2 * S fuel)) as Hgo.
    { intros acc' q' Hl Hu' Hq'. eapply np_mono; [|by apply IH]. intros rs [? ?]. split; [done|lia]. }
    destruct v as [c zero one si bk|lk ld|e]; [| |done].
    - apply np_bind, np_lift; [apply m_calc_np|]. intros m _.
      apply np_bind. apply (np_mono _ (λ ds, length ds ≤ length cks)).
      2: { destruct (m <? si); [|cbn; lia]. apply np_lift; [by apply m_check_np|]. intros ds Hds. by eapply m_check_length. }
      intros ds Hds. destruct ((m <? si) && (length ds =? 0)).
      + apply np_bind, np_lift; [apply m_add_np|]. intros rf' _.
        cbn [db_insert mbind prog_bind pbind np]. split; [exact Hc|]. apply Hgo; [rewrite app_length; cbn; lia|by apply Hsn|done].
      + apply np_bind, np_lift; [apply split_pairs_calm|]. intros zo Hzo.
        assert (length zo.1 ≤ length cks ∧ length zo.2 ≤ length cks) as [Hz0 Hz1].
        { destruct (split_pairs_length _ _ _ Hzo) as [?|[_ ->]]; cbn in *; lia. }
        apply np_bind. eapply np_mono; [|apply m_split_nodes_np; by eapply fits_le]. intros r1 Hr1.
        destruct (m_push_split_np r1 acc q Hr1 Ha Hq) as (Ha1 & Hl1 & Hq1).
        destruct (push_split r1 acc q) as [acc1 q1]. cbn [fst snd] in *.
        apply np_bind. eapply np_mono; [|apply m_split_nodes_np; by eapply fits_le]. intros r0 Hr0.
        destruct (m_push_split_np r0 acc1 q1 Hr0 Ha1 Hq1) as (Ha0 & Hl0 & Hq0).
        destruct (push_split r0 acc1 q1) as [acc0 q0]. cbn [fst snd] in *. apply Hgo; [lia|done|done].
    - destruct (km !! lk) as [l|].
      + destruct (decide (l = lc)); [|apply Hgo; [lia|done|done]].
        apply np_bind. eapply np_mono; [|apply m_insert_leaf_np]. intros _ _. apply Hgo; [lia|done|done].
      + apply np_bind. eapply np_mono; [|apply m_insert_leaf_np]. intros _ _.
        apply Hgo; [rewrite app_length; cbn; lia|by apply Hsn|done].
  Qed.

  Lemma m_merge_one_np rs it L : fits (wptr M) (length rs) → fits (wcnt M) (length rs) → mok rs (it :: L) →
    np (m_merge_one M rs it) (λ x, mok (n := n) x.1 L ∧ length x.1 = length rs).
  Proof using HM Hn Hbits.
    intros Hfp Hfc (HF & ws & Hrep & Hb). apply Forall_cons in HF as [Hsp HF]. destruct it as [[sp p] q]. cbn [fst snd] in *.
    rewrite fmap_cons in Hb. cbn [fst snd] in Hb.
    assert ((p, q) ∈ wbounds 0 ws) as Hin by (rewrite Hb; by left).
    apply wbounds_elem in Hin as (ws1 & wl & wr & ws2 & -> & Hp & Hq).
    rewrite Nat.add_0_l in Hp, Hq.
    assert (wbounds 0 (ws1 ++ (wl + wr) :: ws2) ≡ₚ ((λ it, (it.1.2, it.2)) <$> L)) as Hb'.
    { apply (Permutation_cons_inv (a := (p, q))). rewrite <- Hb. symmetry.
      rewrite Hp, Hq. apply (wbounds_merge 0 ws1 wl wr ws2). }
    pose proof Hrep as Hrep0. apply wrep_app in Hrep as [Hrep1 Hrep2]. rewrite Nat.add_0_l in Hrep2.
    pose proof (wrep_width _ _ _ Hrep0 ltac:(by destruct ws1)) as Hwd.
    assert (sum_list (ws1 ++ wl :: wr :: ws2) = sum_list ws1 + (wl + (wr + sum_list ws2))) as Hsum.
    { clear. induction ws1 as [|w ws1 IH]; [done|]. cbn [app]. rewrite !sum_cons, IH. lia. }
    rewrite Hsum in Hwd. clear Hrep0 Hsum.
    set (a := sum_list ws1) in *. cbn [wrep] in Hrep2.
    destruct Hrep2 as (Hwl & (xl & Hlp & Hxl) & Hchl & Hwr & (xr & Hlq & Hxr) & Hchr & Hrep2).
    assert (q = S p) as Hqp by lia.
    unfold m_merge_one. rewrite <- Hp in Hlp.
    unfold index. rewrite Hlp. cbn [lift mbind prog_bind pbind].
    replace (a + wl) with (S p) in Hchr by lia.
    assert (∃ rn, rs !! q = Some rn ∧
      (if 1 <? tcount rn then m_lookahead M (length rs) rs p (tcount rn) else Ok (q, tcount rn)) =
        Ok (p + wr, wr)) as (rn & Hrn & Hla).
    { inversion Hchr as [x Hx Hw He|c x Hx Hlt Hc0 Hle Hch He].
      - assert (wr = 1) as Hw1 by congruence. exists x. rewrite Hw1 in *.
        replace (S p + 1 - 1) with q in Hx by lia. split; [done|].
        rewrite Hw. simpl. f_equal. f_equal; lia.
      - exists x. replace (S p + 1 - 1) with q in Hx by lia. split; [done|].
        destruct (Nat.ltb_spec 1 (tcount x)); [|lia].
        apply m_lookahead_chain; try lia; [|done]. eapply fits_le; [|exact Hfp]. lia. }
    rewrite Hrn. cbn [lift mbind prog_bind pbind]. rewrite Hla. cbn [lift mbind prog_bind pbind fst snd].
    replace (p + wr) with (a + wl + wr - 1) by lia. rewrite Hlq.
    cbn [lift mbind prog_bind pbind].
    apply np_bind, np_lift; [apply m_add_np|]. intros cnt _.
    cbn [hash mbind prog_bind pbind np]. intros bloc.
    cbn [db_insert mbind prog_bind pbind np]. split; [unfold in_range; cbn; lia|].
    rewrite m_add_ok by (eapply fits_le; [|exact Hfc]; lia). cbn [lift mbind prog_bind pbind mret prog_ret np].
    set (new := TRef _ _ _ _).
    assert (tcount new = wl + wr) as Hnew by (unfold new; cbn; lia).
    set (rs' := <[p := new]> (<[a + wl + wr - 1 := new]> rs)).
    assert (∀ i, i ≠ p → i ≠ a + wl + wr - 1 → rs' !! i = rs !! i) as Hfr.
    { intros i Hi1 Hi2. unfold rs'. rewrite !list_lookup_insert_ne by done. done. }
    assert (rs' !! p = Some new) as Hnp.
    { unfold rs'. apply list_lookup_insert. rewrite insert_length. lia. }
    assert (rs' !! (a + wl + wr - 1) = Some new) as Hnb.
    { unfold rs'. rewrite list_lookup_insert_ne by lia. apply list_lookup_insert. lia. }
    change (mok rs' L ∧ length rs' = length rs). split; [|unfold rs'; by rewrite !insert_length].
    split; [done|]. exists (ws1 ++ (wl + wr) :: ws2). split; [|done].
    apply wrep_app. rewrite Nat.add_0_l. fold a. split.
    - eapply wrep_frame; [|done]. fold a. intros i Hi. apply Hfr; lia.
    - cbn [wrep]. split_and!; [lia| | |].
      + exists new. rewrite Nat.add_assoc. by rewrite Hnb.
      + eapply (chain_extend rs rs' a wl wr 1 new); try lia; try done.
        * intros i Hi. apply Hfr; lia.
        * by rewrite <- Hp.
      + rewrite Nat.add_assoc. eapply wrep_frame; [|done]. intros i Hi. apply Hfr; lia.
  Qed.
  Lemma m_merge_level_np (rs : list (tref n)) root lv L : fits (wptr M) (length rs) → fits (wcnt M) (length rs) → mok rs (lv ++ L) →
    np (m_merge_level M rs root lv) (λ x, mok (n := n) x.1 L ∧ length x.1 = length rs).
  Proof using HM Hn Hbits.
    revert rs root. induction lv as [|it lv IH]; intros rs root Hfp Hfc Hm; [done|]. cbn [m_merge_level].
    apply np_bind. eapply np_mono; [|by apply (m_merge_one_np _ _ (lv ++ L))]. intros x [Hx Hl].
    rewrite <- Hl. apply IH; by rewrite ?Hl.
  Qed.
  Lemma m_merge_all_np (rs : list (tref n)) root lvs : fits (wptr M) (length rs) → fits (wcnt M) (length rs) → mok rs (mjoin lvs) →
    np (n := n) (m_merge_all M rs root lvs) (λ _, True).
  Proof using HM Hn Hbits.
    revert rs root. induction lvs as [|lv lvs IH]; intros rs root Hfp Hfc Hm; [done|]. cbn [m_merge_all].
    apply np_bind. unfold m_merge_nodes. apply np_bind.
    eapply np_mono; [|by apply (m_merge_level_np _ _ _ (mjoin lvs))]. intros x [Hx Hl]. cbn. apply IH; by rewrite ?Hl.
  Qed.
  Lemma m_create_tree_np (rs : list (tref n)) : fits (wptr M) (length rs) → fits (wcnt M) (length rs) → unit_refs rs →
    np (m_create_tree M rs) (λ _, True).
  Proof using HM Hn Hbits.
    intros Hfp Hfc Hu. destruct rs as [|r1 [|r2 rs]]; [done|done|]. unfold m_create_tree.
    set (rs0 := r1 :: r2 :: rs) in *. set (rs' := sort_refs rs0).
    assert (rs' ≡ₚ rs0) as Hpm by (unfold rs', sort_refs; by rewrite merge_sort_Permutation).
    assert (unit_refs rs') as Hu' by (by rewrite Hpm).
    assert (length rs' = length rs0) as Hl by (by rewrite Hpm).
    destruct (items_calm Hn 0 rs') as [Hp Hit].
    rewrite m_items_ok by (done || by rewrite Hl).
    apply np_bind, np_lift; [done|]. intros its Hits. destruct (Hit its Hits) as [Hw Hlt].
    apply np_bind. eapply (np_mono _ (λ _, True)); [by intros [] _|]. apply m_merge_all_np; [by rewrite Hl..|].
    destruct (levels_of_spec its) as (Hperm & _). split; [by rewrite Hperm|].
    exists (replicate (length rs') 1). split; [by apply (wrep_ones [])|].
    rewrite Hperm. by rewrite Hw.
  Qed.
  (** The most references an insertion can have to merge. *)
  Definition most_refs (D keys : nat) : nat := keys + 2 * (keys * (D + 2) + 1).
  Lemma m_insert_sorted_np D prev ks vm : fits (wptr M) (most_refs D (length ks)) → fits (wcnt M) (most_refs D (length ks)) →
    (∀ k, k ∈ ks → is_Some (vm !! k)) → np (m_insert_sorted M enc D prev ks vm) (λ _, True).
  Proof using HM Hn Hbits Hcodec.
    intros Hfp Hfc Hvm. unfold m_insert_sorted. apply np_bind. eapply np_mono; [|by apply m_insert_leaves_np].
    intros ls _. cbn beta. apply np_bind.
    eapply (np_mono _ (λ rs, unit_refs rs ∧ length rs ≤ 2 * (length ks * (D + 2) + 1))).
    { intros ps [Hps Hlp].
      assert (length (zip_with (λ l k, TRef k l 1 1) ls ks ++ ps) ≤ most_refs D (length ks)) as Hle.
      { rewrite app_length, zip_with_length. unfold most_refs. lia. }
      apply m_create_tree_np; [by eapply fits_le..|]. apply Forall_app. split; [|done]. clear.
      revert ks. induction ls as [|l ls IH]; intros [|k ks]; cbn; try constructor; [done|apply IH]. }
    destruct prev as [root|]; [|cbn; split; [constructor|lia]]. unfold m_generate_treerefs. cbn [get_node mbind prog_bind pbind np].
    intros [nd|] Ho; [|done]. eapply np_mono; [|apply m_traverse_np; [|constructor]].
    - cbn. intros rs [? Hl]. split; [done|]. unfold traverse_fuel in Hl. lia.
    - constructor; [|done]. split; [by apply Ho|]. cbn. eapply fits_le; [|exact Hfp]. unfold most_refs. lia.
  Qed.
  (** The arguments of a call are not too large for the machine. *)
  Definition call_small (c : call n V) : Prop :=
    match c with
    | CInsert D _ ks _ => fits (wptr M) (most_refs D (length ks)) ∧ fits (wcnt M) (most_refs D (length ks))
    | CInsertOne D _ _ _ => fits (wptr M) (most_refs D 1) ∧ fits (wcnt M) (most_refs D 1)
    | CGet _ _ ks => fits (wptr M) (length ks)
    | CGetOne _ _ _ => True
    | CProve D _ _ => fits (wptr M - 1) (deque_cap M D * n) ∧ fits (wptr M - 1) (D * (n + 1))
    | CVerify _ _ _ _ => True
    end.
  Lemma m_capacity_np a b : fits (wptr M - 1) (a * b) → m_with_capacity M a b = Ok tt.
  Proof using. unfold fits, m_with_capacity. intros Hf. rewrite Nat2N.inj_mul in Hf. by apply N.ltb_lt in Hf as ->. Qed.
  Lemma m_exec_np (c : call n V) : call_small c → np (m_exec M enc dec c) (λ _, True).
  Proof using HM Hn Hbits Hcodec.
    assert (fits (wptr M) 1) as H1 by (eapply fits_le; [|exact Hbits]; lia).
    destruct c as [D prev ks vs|D prev k v|D root ks|D root k|D root k|root k v proof]; cbn [m_exec call_small].
    - intros [Hfp Hfc]. apply np_bind. eapply (np_mono _ (λ _, True)); [done|].
      unfold m_insert. destruct (Nat.eqb_spec (length ks) (length vs)) as [Hl|]; [|done]. cbn [negb].
      destruct (length ks =? 0); [done|]. cbn [orb].
      destruct (length vs =? 0); [done|]. apply m_insert_sorted_np; [by rewrite sort_keys_length..|].
      intros k Hk. rewrite elem_of_sort_keys in Hk. by apply value_map_some.
    - intros [Hfp Hfc]. apply np_bind. eapply (np_mono _ (λ _, True)); [done|]. apply m_insert_sorted_np; [done..|].
      intros k' ->%elem_of_list_singleton. rewrite lookup_singleton. by eexists.
    - intros Hf. apply np_bind. eapply (np_mono _ (λ _, True)); [done|]. by apply m_get_np.
    - intros _. apply np_bind. eapply (np_mono _ (λ _, True)); [done|]. by apply m_get_one_np.
    - intros [Hf1 Hf2]. apply np_bind. eapply (np_mono _ (λ _, True)); [done|]. unfold m_generate_inclusion_proof.
      rewrite !m_capacity_np by done. cbn [lift mbind prog_bind pbind]. by apply m_gen_proof_np.
    - intros _. by apply (verify_np enc dec).
  Qed.
  Context (B : backend n) {HB : BackendOk B} (H : list bytes → arr n).
  Theorem build_no_panic st c : call_small c → sane B st →
    out B H (m_exec M enc dec c) st ≠ RPanic ∧ Forall (sane B) (states B H (m_exec M enc dec c) st) ∧
    ∀ i, (run_fault B H i (m_exec M enc dec c) st).1 ≠ RPanic ∧ sane B (run_fault B H i (m_exec M enc dec c) st).2.
  Proof using HM Hn Hbits Hcodec HB.
    intros Hc Hs. pose proof (m_exec_np c Hc) as Hp. destruct (np_run B H _ _ st Hp Hs) as (H1 & _ & H3).
    split_and!; [done|done|]. intros i. split; [|by eapply np_fault].
    destruct (fault_outcome B H (m_exec M enc dec c) i st) as [->|Hr]; [done|]. by rewrite Hr.
  Qed.
  Theorem build_no_panic_range st c : call_small c →
    (∀ l nd, b_vis B st !! l = Some nd → in_range nd) → (∀ l nd, b_vis B (b_flush B st) !! l = Some nd → in_range nd) →
    out B H (m_exec M enc dec c) st ≠ RPanic ∧
    (∀ st', st' ∈ states B H (m_exec M enc dec c) st → (∀ l nd, b_vis B st' !! l = Some nd → in_range nd) ∧
       (∀ l nd, b_vis B (b_flush B st') !! l = Some nd → in_range nd)) ∧
    (∀ i, (run_fault B H i (m_exec M enc dec c) st).1 ≠ RPanic) ∧
    (fits (wptr M) (limit_of c + 1) →
       (out B H (m_exec M enc dec c) st = ROk tt ∨ ∃ er, out B H (m_exec M enc dec c) st = RErr er) ∧
       ∀ i, (run_fault B H i (m_exec M enc dec c) st).1 = ROk tt ∨ ∃ er, (run_fault B H i (m_exec M enc dec c) st).1 = RErr er).
  Proof using HM Hn Hbits Hcodec HB.
    intros Hc Hv Hw. assert (sane B st) as Hs by (split; [done|]; by rewrite <- bvis_flush).
    destruct (build_no_panic st c Hc Hs) as (H1 & H2 & H3). split_and!; [done| |intros i; apply H3|].
    - intros st' Hst'. rewrite Forall_forall in H2. destruct (H2 st' Hst') as [Ha Hb]. split; [done|].
      intros l nd. rewrite bvis_flush. apply Hb.
    - intros HD. destruct (m_bounded M enc dec B H st c HD) as [Hf _].
      assert (out B H (m_exec M enc dec c) st = ROk tt ∨ ∃ er, out B H (m_exec M enc dec c) st = RErr er) as Ho.
      { destruct (out B H (m_exec M enc dec c) st) as [[]|er| |]; try done; eauto. }
      split; [done|]. intros i. destruct (fault_outcome B H (m_exec M enc dec c) i st) as [->| ->]; [eauto|done].
  Qed.
End SaneBuild.
