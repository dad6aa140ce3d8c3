(** * How a batch of keys is routed through a trie
    Pure counterpart of the descent of [get] and [insert]. *)
From Coq Require Import Strings.Byte NArith.
From stdpp Require Import prelude countable gmap sorting strings.
From Verif Require Import Model Bits Spec Util Trie Store Logic Build.

Local Open Scope nat_scope.

Section Route.
  Context {n : nat}.
  Implicit Types (t l r : trie n) (k a b c bk : arr n) (ks : list (arr n)) (M : arr n → Prop).

  (** The keys of the batch considered to be below a branch, and their division. *)
  Definition node_desc ks (s : nat) bk : list (arr n) :=
    match calc_min_split_index ks bk with
    | Ok m => match check_descendants ks s bk m with Ok d => d | _ => [] end
    | _ => []
    end.
  Definition node_split ks (s : nat) : list (arr n) * list (arr n) :=
    match split_pairs ks s with Ok zo => zo | _ => ([], []) end.

  Lemma weak_exact m s q : s ≤ q → weak m s q = true.
  Proof. intros Hq. unfold weak. apply Nat.leb_le. lia. Qed.
  Lemma weak_ge m s q : s ≤ m → m ≤ q → weak m s q = true.
  Proof. intros H1 H2. apply weak_exact. lia. Qed.

  Lemma node_desc_spec ks s bk : 0 < n → ksorted ks → ks ≠ [] → s < 8 * n →
    ∃ m, calc_min_split_index ks bk = Ok m ∧ check_descendants ks s bk m = Ok (node_desc ks s bk) ∧
      (s ≤ m → node_desc ks s bk = ks) ∧
      node_desc ks s bk = filter (λ k, weak m s (klcp k bk) = true) ks ∧
      ((∀ k, k ∈ ks → k = bk) ∨ ∃ k, k ∈ ks ∧ klcp k bk = m) ∧ (∀ k, k ∈ ks → m ≤ klcp k bk).
  Proof.
    intros Hn Hs Hne Hsn. destruct (calc_min_split_index_spec ks bk Hn Hs Hne) as (m & Hm & Hmn & Hc).
    assert (∀ k, k ∈ ks → m ≤ klcp k bk) as Hle.
    { destruct Hc as [[Hall ->]|[Hall _]]; [|done]. intros k Hk. rewrite (Hall k Hk), klcp_refl. lia. }
    exists m. unfold node_desc. rewrite Hm.
    rewrite check_descendants_weak by (done || lia). split_and!; try done.
    - intros Hsm. apply filter_all. intros k Hk. apply weak_ge with (m := m); auto.
    - destruct Hc as [[? _]|[_ ?]]; auto.
  Qed.
  Lemma node_desc_sorted ks s bk : 0 < n → s < 8 * n → ksorted ks → ksorted (node_desc ks s bk).
  Proof.
    intros Hn Hsn Hs. destruct (decide (ks = [])) as [->|Hne]; [constructor|].
    destruct (node_desc_spec ks s bk) as (m & _ & _ & _ & -> & _); try done.
    by apply StronglySorted_filter.
  Qed.
  Lemma elem_of_node_desc ks s bk k : 0 < n → s < 8 * n → ksorted ks →
    k ∈ node_desc ks s bk → k ∈ ks.
  Proof.
    intros Hn Hsn Hs. destruct (decide (ks = [])) as [->|Hne]; [done|].
    destruct (node_desc_spec ks s bk) as (m & _ & _ & _ & -> & _); try done.
    by intros [_ ?]%elem_of_list_filter.
  Qed.
  Lemma node_desc_length ks s bk : 0 < n → s < 8 * n → ksorted ks →
    length (node_desc ks s bk) ≤ length ks.
  Proof.
    intros Hn Hsn Hs. destruct (decide (ks = [])) as [->|Hne]; [done|].
    destruct (node_desc_spec ks s bk) as (m & _ & _ & _ & -> & _); try done.
    apply filter_length.
  Qed.
  Lemma node_split_app ks s : s < 8 * n →
    split_pairs ks s = Ok (node_split ks s) ∧ (node_split ks s).1 ++ (node_split ks s).2 = ks.
  Proof.
    intros Hs. unfold node_split. destruct (split_pairs_total ks s Hs) as (z & o & Hzo).
    rewrite Hzo. split; [done|]. by apply split_pairs_app in Hzo.
  Qed.

  (** Pieces of the old trie that an insertion keeps, and the depth it visits.
      [del k]: the leaf of [k] is replaced. *)
  Section Dec.
    Context (del : arr n → bool).
    Fixpoint wdec t ks : list (trie n) :=
      match t with
      | TLeaf k _ => if del k then [] else [t]
      | TNode l r =>
          match node_desc ks (tsplit l r) (tmin l) with
          | [] => [t]
          | D => let zo := node_split D (tsplit l r) in
                 match zo.1 with [] => [l] | z => wdec l z end ++
                 match zo.2 with [] => [r] | o => wdec r o end
          end
      end.
  End Dec.
  Fixpoint wdep t ks : nat :=
    match t with
    | TLeaf _ _ => 0
    | TNode l r =>
        match node_desc ks (tsplit l r) (tmin l) with
        | [] => 0
        | D => let zo := node_split D (tsplit l r) in
               max match zo.1 with [] => 0 | z => S (wdep l z) end
                   match zo.2 with [] => 0 | o => S (wdep r o) end
        end
    end.
  (** The leaves that a multi-key read visits. *)
  Fixpoint wget t ks : list (arr n * bytes) :=
    match t with
    | TLeaf k e => [(k, e)]
    | TNode l r =>
        match node_desc ks (tsplit l r) (tmin l) with
        | [] => []
        | D => let zo := node_split D (tsplit l r) in
               match zo.1 with [] => [] | z => wget l z end ++
               match zo.2 with [] => [] | o => wget r o end
        end
    end.
  Lemma wdep_depth t ks : wdep t ks ≤ tdepth t.
  Proof.
    revert ks. induction t as [k e|l IHl r IHr]; intros ks; simpl; [done|].
    destruct (node_desc _ _ _) as [|d D]; [lia|].
    destruct (node_split _ _) as [[|z zs] [|o os]]; cbn [fst snd];
      try specialize (IHl (z :: zs)); try specialize (IHr (o :: os)); lia.
  Qed.
  Lemma wget_elem t ks p : p ∈ wget t ks → p ∈ tleaves t.
  Proof.
    revert ks. induction t as [k e|l IHl r IHr]; intros ks; simpl; [done|].
    destruct (node_desc _ _ _) as [|d D]; [by intros ?%elem_of_nil|].
    destruct (node_split _ _) as [[|z zs] [|o os]]; cbn [fst snd]; rewrite !elem_of_app;
      rewrite ?elem_of_nil; naive_solver.
  Qed.

  (** ** Benign batches
      The descendant test looks at one bit position per byte, starting at the
      smallest split position [m] of the batch; see [hazard] in Spec.v. *)
  (** Position of the batch relative to a subtrie of the whole tree [M]. *)
  Definition ctx (M : arr n → Prop) t ks : Prop :=
    ∀ c, M c → c ∉ tkeys t → ∀ k, k ∈ ks → klcp c (tmin t) < klcp k (tmin t).

  Lemma weak_stray m s q : s < 8 * n → m ≤ q → q < s → weak m s q = true →
    m < 8 * ((s - 1) / 8) ∧ 8 * ((s - 1) / 8) ≤ q ∧ (s - 1) mod 8 < m mod 8.
  Proof.
    unfold weak. rewrite Nat.leb_le. intros Hs8 Hmq Hlt Hw.
    pose proof (Nat.div_mod_eq q 8) as Hq. pose proof (Nat.mod_upper_bound q 8 ltac:(lia)).
    pose proof (Nat.div_mod_eq m 8) as Hm8. pose proof (Nat.mod_upper_bound m 8 ltac:(lia)).
    assert (m / 8 < q / 8) as Hdiv.
    { destruct (decide (m / 8 = q / 8)) as [He|]; [|].
      - rewrite <- He in Hw. lia.
      - pose proof (Nat.div_le_mono m q 8 ltac:(lia) Hmq). lia. }
    assert ((s - 1) / 8 = q / 8) as Hs1.
    { symmetry. apply (Nat.div_unique (s - 1) 8 (q / 8) (s - 1 - 8 * (q / 8))); lia. }
    assert ((s - 1) mod 8 = s - 1 - 8 * (q / 8)) as Hs2.
    { rewrite Nat.mod_eq by lia. lia. }
    rewrite Hs1, Hs2. lia.
  Qed.
  Lemma weak_false_exact (M : arr n → Prop) ks ks' l r m : 
    (∀ k, k ∈ tkeys (TNode l r) → M k) → twf (TNode l r) → ¬ hazard M ks → (∀ k, k ∈ ks' → k ∈ ks) →
    ctx M (TNode l r) ks' →
    ((∀ k, k ∈ ks' → k = tmin l) ∨ ∃ k, k ∈ ks' ∧ klcp k (tmin l) = m) →
    (∀ k, k ∈ ks' → m ≤ klcp k (tmin l)) →
    ∀ k, k ∈ ks' → weak m (tsplit l r) (klcp k (tmin l)) = true ↔ tsplit l r ≤ klcp k (tmin l).
  Proof.
    intros HM Hwf Hhz Hsub Hctx Hm Hle y Hy. split; [|apply weak_exact].
    unfold weak. rewrite Nat.leb_le. intros Hw.
    pose proof (tsplit_lt l r ltac:(by destruct Hwf as (_&_&?&_))) as Hs8.
    destruct (decide (tsplit l r ≤ klcp y (tmin l))) as [|Hlt]; [done|]. exfalso.
    apply not_le in Hlt.
    destruct Hm as [Hall|(x & Hx & Hxm)].
    { rewrite (Hall y Hy), klcp_refl in Hlt. lia. }
    set (s := tsplit l r) in *. set (q := klcp y (tmin l)) in *.
    assert (m ≤ q) as Hmq by (by apply Hle).
    pose proof (Nat.div_mod_eq q 8) as Hq. pose proof (Nat.mod_upper_bound q 8 ltac:(lia)).
    pose proof (Nat.div_mod_eq m 8) as Hm8. pose proof (Nat.mod_upper_bound m 8 ltac:(lia)).
    assert (m / 8 < q / 8) as Hdiv.
    { destruct (decide (m / 8 = q / 8)) as [He|]; [|].
      - rewrite <- He in Hw. lia.
      - pose proof (Nat.div_le_mono m q 8 ltac:(lia) Hmq). lia. }
    assert ((s - 1) / 8 = q / 8) as Hs1.
    { symmetry. apply (Nat.div_unique (s - 1) 8 (q / 8) (s - 1 - 8 * (q / 8))); lia. }
    assert ((s - 1) mod 8 = s - 1 - 8 * (q / 8)) as Hs2.
    { rewrite Nat.mod_eq by lia. lia. }
    apply Hhz. exists (tmin l), (tmin r), x, y.
    assert (tmin l ∈ tkeys (TNode l r)) as Hl by (rewrite tkeys_node; apply elem_of_app; left; apply tmin_in).
    assert (tmin r ∈ tkeys (TNode l r)) as Hr by (rewrite tkeys_node; apply elem_of_app; right; apply tmin_in).
    split_and!; auto.
    { intros He. unfold s, tsplit in Hs8. rewrite He, klcp_refl in Hs8. lia. }
    cbv zeta. change (klcp (tmin l) (tmin r)) with s. rewrite Hxm. fold q. rewrite Hs1, Hs2.
    split_and!; try lia.
    intros c Hc [Hc1 Hc2]. destruct (decide (c ∈ tkeys (TNode l r))) as [Hin|Hni].
    - apply (twf_agree l r c Hwf) in Hin. unfold s in Hc2. lia.
    - specialize (Hctx c Hc Hni x Hx). simpl in Hctx. lia.
  Qed.

  Lemma node_exact (M : arr n → Prop) ks ks' l r : 0 < n →
    (∀ k, k ∈ tkeys (TNode l r) → M k) → twf (TNode l r) → ¬ hazard M ks → (∀ k, k ∈ ks' → k ∈ ks) →
    ctx M (TNode l r) ks' → ksorted ks' → ks' ≠ [] →
    node_desc ks' (tsplit l r) (tmin l) = filter (λ k, tsplit l r ≤ klcp k (tmin l)) ks'.
  Proof.
    intros Hn HM Hwf Hhz Hsub Hctx Hs Hne.
    pose proof (tsplit_lt l r ltac:(by destruct Hwf as (_&_&?&_))) as Hs8.
    destruct (node_desc_spec ks' (tsplit l r) (tmin l)) as (m & _ & _ & _ & -> & Hm & Hle); try done.
    pose proof (weak_false_exact M ks ks' l r m HM Hwf Hhz Hsub Hctx Hm Hle) as Hex.
    clear -Hex. induction ks' as [|k ks' IH]; [done|]. rewrite !filter_cons.
    pose proof (Hex k ltac:(by left)) as Hk. rewrite IH by (intros k' Hk'; apply Hex; by right).
    destruct (decide _), (decide _); tauto.
  Qed.
  Lemma node_split_exact ks l r : twf (TNode l r) → ksorted ks →
    (∀ k, k ∈ ks → tsplit l r ≤ klcp k (tmin l)) →
    node_split ks (tsplit l r) =
      (filter (λ k, bit k (tsplit l r) = false) ks, filter (λ k, bit k (tsplit l r) = true) ks).
  Proof.
    intros Hwf Hs Hag. unfold node_split. rewrite split_pairs_spec; [done| |done|].
    - apply tsplit_lt. by destruct Hwf as (_&_&?&_).
    - intros a b Ha Hb. apply Hag in Ha, Hb.
      pose proof (klcp_ultra a (tmin l) b). rewrite (klcp_sym (tmin l) b) in *. lia.
  Qed.

  Lemma ctx_left M l r ks ks' : twf (TNode l r) → ctx M (TNode l r) ks →
    (∀ k, k ∈ ks' → k ∈ ks ∧ tsplit l r ≤ klcp k (tmin l) ∧ bit k (tsplit l r) = false) →
    ctx M l ks'.
  Proof.
    intros Hwf Hctx Hks c Hc Hni k Hk. destruct (Hks k Hk) as (Hk1 & Hk2 & Hk3).
    assert (tsplit l r < klcp k (tmin l)) as Hlt.
    { destruct (decide (tsplit l r = klcp k (tmin l))) as [He|]; [|lia]. exfalso.
      pose proof (tsplit_lt l r ltac:(by destruct Hwf as (_&_&?&_))).
      apply (klcp_differ k (tmin l)); [lia|]. rewrite <- He, Hk3. symmetry. apply tsplit_bits.
      by destruct Hwf as (_&_&?&_). }
    destruct (decide (c ∈ tkeys r)) as [Hr|Hr].
    - destruct (twf_right l r c Hwf Hr) as [-> _]. done.
    - apply (Hctx c Hc); [|done]. rewrite tkeys_node, elem_of_app. tauto.
  Qed.
  Lemma right_agree l r k : twf (TNode l r) → tsplit l r ≤ klcp k (tmin l) → bit k (tsplit l r) = true →
    klcp k (tmin l) = tsplit l r ∧ tsplit l r < klcp k (tmin r).
  Proof.
    intros Hwf Hk2 Hk3. pose proof Hwf as (_&_&Hlt&_).
    pose proof (tsplit_lt l r Hlt) as Hs8. pose proof (tsplit_bits l r Hlt) as [Hb1 Hb2].
    assert (klcp k (tmin l) = tsplit l r) as He.
    { destruct (decide (tsplit l r = klcp k (tmin l))) as [|]; [done|]. exfalso.
      rewrite <- (klcp_agree k (tmin l)) in Hb1 by lia. congruence. }
    split; [done|].
    pose proof (klcp_ultra k (tmin l) (tmin r)) as Hu.
    fold (tsplit l r) in Hu. rewrite He in Hu.
    destruct (decide (tsplit l r = klcp k (tmin r))) as [He2|]; [|lia]. exfalso.
    apply (klcp_differ k (tmin r)); [lia|]. rewrite <- He2. congruence.
  Qed.
  Lemma ctx_right M l r ks ks' : twf (TNode l r) → ctx M (TNode l r) ks →
    (∀ k, k ∈ ks' → k ∈ ks ∧ tsplit l r ≤ klcp k (tmin l) ∧ bit k (tsplit l r) = true) →
    ctx M r ks'.
  Proof.
    intros Hwf Hctx Hks c Hc Hni k Hk. destruct (Hks k Hk) as (Hk1 & Hk2 & Hk3).
    destruct (right_agree l r k Hwf Hk2 Hk3) as [He Hlt].
    destruct (decide (c ∈ tkeys l)) as [Hl|Hl].
    - destruct (twf_cross l r c (tmin r) Hwf Hl (tmin_in r)) as [-> _]. done.
    - assert (klcp c (tmin l) < klcp k (tmin l)) as Hc1.
      { apply (Hctx c Hc); [|done]. rewrite tkeys_node, elem_of_app. tauto. }
      assert (klcp c (tmin r) = klcp c (tmin l)) as ->.
      { apply (klcp_ultra_lt c (tmin l) (tmin r)). fold (tsplit l r). lia. }
      lia.
  Qed.

  (** *** Benign batches are routed exactly *)
  Definition zside l r ks : list (arr n) :=
    filter (λ k, bit k (tsplit l r) = false) (filter (λ k, tsplit l r ≤ klcp k (tmin l)) ks).
  Definition oside l r ks : list (arr n) :=
    filter (λ k, bit k (tsplit l r) = true) (filter (λ k, tsplit l r ≤ klcp k (tmin l)) ks).

  (** [clean M t ks]: the conditions under which the descent is exact. *)
  Definition clean (M : arr n → Prop) ks0 t ks : Prop :=
    (∀ k, k ∈ tkeys t → M k) ∧ twf t ∧ ¬ hazard M ks0 ∧ (∀ k, k ∈ ks → k ∈ ks0) ∧
    ctx M t ks ∧ ksorted ks.
  Lemma clean_root t ks : twf t → ksorted ks → ¬ hazard (λ k, k ∈ tkeys t) ks →
    clean (λ k, k ∈ tkeys t) ks t ks.
  Proof. intros Hwf Hs Hh. split_and!; try done. intros c Hc Hni. done. Qed.

  Lemma clean_node M ks0 l r ks : 0 < n → clean M ks0 (TNode l r) ks → ks ≠ [] →
    let D := node_desc ks (tsplit l r) (tmin l) in
    D = filter (λ k, tsplit l r ≤ klcp k (tmin l)) ks ∧
    node_split D (tsplit l r) = (zside l r ks, oside l r ks) ∧
    clean M ks0 l (zside l r ks) ∧ clean M ks0 r (oside l r ks).
  Proof.
    intros Hn (HM & Hwf & Hh & Hsub & Hctx & Hs) Hne. cbv zeta.
    pose proof (node_exact M ks0 ks l r Hn HM Hwf Hh Hsub Hctx Hs Hne) as HD. rewrite HD.
    assert (ksorted (filter (λ k, tsplit l r ≤ klcp k (tmin l)) ks)) as HsD
      by (by apply StronglySorted_filter).
    pose proof Hwf as (Hwl & Hwr & _).
    split_and!; [done| | |].
    - apply node_split_exact; [done|done|]. by intros k [? _]%elem_of_list_filter.
    - split_and!; try done.
      + intros k Hk. apply HM. rewrite tkeys_node. apply elem_of_app. by left.
      + intros k [_ [_ Hk]%elem_of_list_filter]%elem_of_list_filter. auto.
      + eapply ctx_left; [done|done|].
        intros k [? [? Hk]%elem_of_list_filter]%elem_of_list_filter. done.
      + by apply StronglySorted_filter.
    - split_and!; try done.
      + intros k Hk. apply HM. rewrite tkeys_node. apply elem_of_app. by right.
      + intros k [_ [_ Hk]%elem_of_list_filter]%elem_of_list_filter. auto.
      + eapply ctx_right; [done|done|].
        intros k [? [? Hk]%elem_of_list_filter]%elem_of_list_filter. done.
      + by apply StronglySorted_filter.
  Qed.

  Lemma wget_clean M ks0 t ks k e : 0 < n → clean M ks0 t ks → k ∈ ks →
    (k, e) ∈ tleaves t → (k, e) ∈ wget t ks.
  Proof.
    intros Hn. revert ks. induction t as [k' e'|l IHl r IHr]; intros ks Hc Hk Hin; [done|].
    assert (ks ≠ []) as Hne by (intros ->; by apply elem_of_nil in Hk).
    destruct (clean_node M ks0 l r ks Hn Hc Hne) as (HD & Hsp & Hcl & Hcr).
    cbn [wget]. destruct Hc as (_ & Hwf & _).
    assert (k ∈ tkeys (TNode l r)) as Hkt by (apply elem_of_tkeys; eauto).
    pose proof (twf_agree l r k Hwf Hkt) as Hag.
    assert (k ∈ node_desc ks (tsplit l r) (tmin l)) as HkD.
    { rewrite HD. by apply elem_of_list_filter. }
    destruct (node_desc ks (tsplit l r) (tmin l)) as [|d D]; [by apply elem_of_nil in HkD|].
    rewrite Hsp. cbn [fst snd]. clear Hsp. apply elem_of_app.
    simpl in Hin. apply elem_of_app in Hin as [Hin|Hin].
    - left. assert (k ∈ zside l r ks) as Hz.
      { apply elem_of_list_filter. split; [|by apply elem_of_list_filter].
        apply (twf_left l r k Hwf). apply elem_of_tkeys. eauto. }
      specialize (IHl _ Hcl Hz Hin). destruct (zside l r ks); [by apply elem_of_nil in Hz|done].
    - right. assert (k ∈ oside l r ks) as Ho.
      { apply elem_of_list_filter. split; [|by apply elem_of_list_filter].
        apply (twf_right l r k Hwf). apply elem_of_tkeys. eauto. }
      specialize (IHr _ Hcr Ho Hin). destruct (oside l r ks); [by apply elem_of_nil in Ho|done].
  Qed.

  (** *** Batches that do not mislead
      Keys taken for descendants by mistake travel along, but every key with
      [Q] that is below a branch goes to its side. *)
  Definition tidy (M Q : arr n → Prop) ks0 t ks : Prop :=
    (∀ k, k ∈ tkeys t → M k) ∧ twf t ∧ ¬ misled M Q ks0 ∧ (∀ k, k ∈ ks → k ∈ ks0) ∧ ksorted ks.
  Definition zpart l r ks : list (arr n) :=
    (node_split (node_desc ks (tsplit l r) (tmin l)) (tsplit l r)).1.
  Definition opart l r ks : list (arr n) :=
    (node_split (node_desc ks (tsplit l r) (tmin l)) (tsplit l r)).2.

  Lemma tidy_root Q t ks : twf t → ksorted ks → ¬ misled (λ k, k ∈ tkeys t) Q ks →
    tidy (λ k, k ∈ tkeys t) Q ks t ks.
  Proof. intros Hwf Hs Hh. by split_and!. Qed.

  Lemma desc_true ks l r d : 0 < n → twf (TNode l r) → ksorted ks → d ∈ ks →
    tsplit l r ≤ klcp d (tmin l) → d ∈ node_desc ks (tsplit l r) (tmin l).
  Proof.
    intros Hn Hwf Hs Hd Hag. assert (ks ≠ []) as Hne by (intros ->; by apply elem_of_nil in Hd).
    pose proof (tsplit_lt l r ltac:(by destruct Hwf as (_&_&?&_))) as Hs8.
    destruct (node_desc_spec ks (tsplit l r) (tmin l)) as (m & _ & _ & _ & -> & _); try done.
    apply elem_of_list_filter. split; [|done]. by apply weak_exact.
  Qed.
  (** A key among the descendants that is not below the branch. *)
  Lemma desc_stray ks l r y : 0 < n → twf (TNode l r) → ksorted ks → 
    y ∈ node_desc ks (tsplit l r) (tmin l) → klcp y (tmin l) < tsplit l r →
    ∃ x, x ∈ ks ∧ y ∈ ks ∧
      klcp x (tmin l) < 8 * ((tsplit l r - 1) / 8) ∧ 8 * ((tsplit l r - 1) / 8) ≤ klcp y (tmin l) ∧
      (tsplit l r - 1) mod 8 < klcp x (tmin l) mod 8.
  Proof.
    intros Hn Hwf Hs Hy Hlt. assert (ks ≠ []) as Hne by (intros ->; by apply elem_of_nil in Hy).
    pose proof (tsplit_lt l r ltac:(by destruct Hwf as (_&_&?&_))) as Hs8.
    destruct (node_desc_spec ks (tsplit l r) (tmin l)) as (m & _ & _ & _ & HD & Hm & Hle); try done.
    rewrite HD in Hy. apply elem_of_list_filter in Hy as [Hw Hy].
    destruct Hm as [Hall|(x & Hx & Hxm)].
    { rewrite (Hall y Hy), klcp_refl in Hlt. lia. }
    exists x. rewrite Hxm. destruct (weak_stray m (tsplit l r) (klcp y (tmin l)) Hs8 (Hle y Hy) Hlt Hw) as (?&?&?).
    by split_and!.
  Qed.

  Lemma tidy_node M Q ks0 l r ks : 0 < n → tidy M Q ks0 (TNode l r) ks →
    tidy M Q ks0 l (zpart l r ks) ∧ tidy M Q ks0 r (opart l r ks) ∧
    ∀ d, d ∈ ks → Q d → tsplit l r ≤ klcp d (tmin l) →
      (bit d (tsplit l r) = false → d ∈ zpart l r ks) ∧ (bit d (tsplit l r) = true → d ∈ opart l r ks).
  Proof.
    intros Hn (HM & Hwf & Hh & Hsub & Hs). pose proof Hwf as (Hwl & Hwr & Hltlr & _).
    pose proof (tsplit_lt l r Hltlr) as Hs8.
    set (D := node_desc ks (tsplit l r) (tmin l)).
    assert (ksorted D) as HsD by (by apply node_desc_sorted).
    assert (∀ k, k ∈ D → k ∈ ks) as HDs by (intros k; by apply elem_of_node_desc).
    destruct (node_split_app D (tsplit l r) Hs8) as [Hsp Happ]. unfold zpart, opart. fold D.
    destruct (node_split D (tsplit l r)) as [zs os] eqn:Hzo. cbn [fst snd] in *.
    pose proof HsD as HsD'. rewrite <- Happ in HsD'. apply StronglySorted_app_inv in HsD' as (Hsz & Hsos & _).
    assert (tmin l ∈ tkeys (TNode l r)) as Hl by (rewrite tkeys_node; apply elem_of_app; left; apply tmin_in).
    assert (tmin r ∈ tkeys (TNode l r)) as Hr by (rewrite tkeys_node; apply elem_of_app; right; apply tmin_in).
    assert (∀ d y, d ∈ ks → Q d → tsplit l r ≤ klcp d (tmin l) → y ∈ D → tsplit l r ≤ klcp y (tmin l) ∨
      ¬ (klt y d ∧ bit y (tsplit l r) = true ∧ bit d (tsplit l r) = false ∨
         klt d y ∧ bit y (tsplit l r) = false ∧ bit d (tsplit l r) = true)) as Hord.
    { intros d y Hd HQ Hag Hy. destruct (decide (tsplit l r ≤ klcp y (tmin l))) as [|Hlt%not_le]; [by left|right].
      intros Hbad. destruct (desc_stray ks l r y Hn Hwf Hs Hy Hlt) as (x & Hx & Hyk & H1 & H2 & H3).
      apply Hh. exists (tmin l), (tmin r), x, y, d.
      split_and!; auto.
      { intros He. unfold tsplit in Hs8. rewrite He, klcp_refl in Hs8. lia. }
      cbv zeta. by split_and!. }
    assert (∀ d y, tsplit l r ≤ klcp d (tmin l) → tsplit l r ≤ klcp y (tmin l) → tsplit l r ≤ klcp d y) as Hul.
    { intros d y Hd Hy. pose proof (klcp_ultra d (tmin l) y). rewrite (klcp_sym (tmin l) y) in *. lia. }
    split_and!.
    - split_and!; try done.
      + intros k Hk. apply HM. rewrite tkeys_node. apply elem_of_app. by left.
      + intros k Hk. apply Hsub, HDs. rewrite <- Happ. apply elem_of_app. by left.
    - split_and!; try done.
      + intros k Hk. apply HM. rewrite tkeys_node. apply elem_of_app. by right.
      + intros k Hk. apply Hsub, HDs. rewrite <- Happ. apply elem_of_app. by right.
    - intros d Hd HQ Hag. pose proof (desc_true ks l r d Hn Hwf Hs Hd Hag) as HdD. fold D in HdD. split; intros Hb.
      + eapply split_pairs_zero; [exact Hs8|exact HsD|exact Hsp|done|done|]. intros y Hy Hlt.
        destruct (bit y (tsplit l r)) eqn:Hby; [|done]. exfalso.
        destruct (Hord d y Hd HQ Hag Hy) as [Hyag|Hno]; [|apply Hno; by left].
        rewrite (sorted_bit_mono y d (tsplit l r)) in Hb; [done| |by apply Hul|done].
        apply arr_le_iff. by left.
      + eapply split_pairs_one; [exact Hs8|exact HsD|exact Hsp|done|done|]. intros y Hy Hlt.
        destruct (bit y (tsplit l r)) eqn:Hby; [done|]. exfalso.
        destruct (Hord d y Hd HQ Hag Hy) as [Hyag|Hno]; [|apply Hno; by right].
        rewrite (sorted_bit_mono d y (tsplit l r)) in Hby; [done| |by apply Hul|done].
        apply arr_le_iff. by left.
  Qed.

  Lemma wget_tidy M Q ks0 t ks k e : 0 < n → tidy M Q ks0 t ks → k ∈ ks → Q k →
    (k, e) ∈ tleaves t → (k, e) ∈ wget t ks.
  Proof.
    intros Hn. revert ks. induction t as [k' e'|l IHl r IHr]; intros ks Hc Hk HQ Hin; [done|].
    destruct (tidy_node M Q ks0 l r ks Hn Hc) as (Hcl & Hcr & Hd).
    destruct Hc as (_ & Hwf & _ & _ & Hs).
    assert (k ∈ tkeys (TNode l r)) as Hkt by (apply elem_of_tkeys; eauto).
    pose proof (twf_agree l r k Hwf Hkt) as Hag. destruct (Hd k Hk HQ Hag) as [Hz Ho]. clear Hd.
    pose proof (desc_true ks l r k Hn Hwf Hs Hk Hag) as HkD.
    unfold zpart, opart in *. cbn [wget].
    destruct (node_desc ks (tsplit l r) (tmin l)) as [|d D]; [by apply elem_of_nil in HkD|].
    apply elem_of_app. simpl in Hin. apply elem_of_app in Hin as [Hin|Hin].
    - left. specialize (Hz ltac:(apply (twf_left l r k Hwf); apply elem_of_tkeys; eauto)).
      specialize (IHl _ Hcl Hz HQ Hin). destruct ((node_split (d :: D) (tsplit l r)).1); [by apply elem_of_nil in Hz|done].
    - right. specialize (Ho ltac:(apply (twf_right l r k Hwf); apply elem_of_tkeys; eauto)).
      specialize (IHr _ Hcr Ho HQ Hin). destruct ((node_split (d :: D) (tsplit l r)).2); [by apply elem_of_nil in Ho|done].
  Qed.

  (** ** Pieces *)
  (** [z] branches off above the root branch of [p]. *)
  Definition apart (p : trie n) z : Prop :=
    match p with TLeaf _ _ => True | TNode l r => klcp z (tmin l) < tsplit l r end.

  Inductive subtrie : trie n → trie n → Prop :=
  | sub_refl t : subtrie t t
  | sub_l p l r : subtrie p l → subtrie p (TNode l r)
  | sub_r p l r : subtrie p r → subtrie p (TNode l r).
  Lemma subtrie_trans p q t : subtrie p q → subtrie q t → subtrie p t.
  Proof. intros Hp Hq. induction Hq; [done|apply sub_l; auto|apply sub_r; auto]. Qed.
  Lemma subtrie_twf p t : subtrie p t → twf t → twf p.
  Proof. induction 1; [done| |]; intros (?&?&_); auto. Qed.
  Lemma subtrie_tpwf p t : subtrie p t → tpwf t → tpwf p.
  Proof. induction 1; [done| |]; intros (?&?&_); auto. Qed.
  Lemma subtrie_leaves p t x : subtrie p t → x ∈ tleaves p → x ∈ tleaves t.
  Proof. induction 1; [done| |]; intros Hx; simpl; apply elem_of_app; auto. Qed.
  Lemma subtrie_keys p t k : subtrie p t → k ∈ tkeys p → k ∈ tkeys t.
  Proof.
    intros Hs. rewrite !elem_of_tkeys. intros [e He]. exists e. by eapply subtrie_leaves.
  Qed.

  Lemma wdec_sub del t ks p : p ∈ wdec del t ks → subtrie p t.
  Proof.
    revert ks. induction t as [k e|l IHl r IHr]; intros ks; simpl.
    - destruct (del k); [by intros ?%elem_of_nil|]. intros ->%elem_of_list_singleton. constructor.
    - destruct (node_desc _ _ _) as [|d D].
      { intros ->%elem_of_list_singleton. constructor. }
      destruct (node_split (d :: D) (tsplit l r)) as [zs os]. cbn [fst snd].
      rewrite elem_of_app. intros [Hp|Hp].
      + apply sub_l. destruct zs; [|eapply IHl; eauto].
        apply elem_of_list_singleton in Hp as ->. constructor.
      + apply sub_r. destruct os; [|eapply IHr; eauto].
        apply elem_of_list_singleton in Hp as ->. constructor.
  Qed.

  (** The keys of the batch that are in the subtrie have been routed to it. *)
  Definition routed ks0 t ks : Prop := ∀ k, k ∈ ks0 → k ∈ tkeys t → k ∈ ks.
  (** The keys of the batch that agree with the branch have been routed to it. *)
  Definition routed_br ks0 t ks : Prop := ∀ k, k ∈ ks0 → ¬ apart t k → k ∈ ks.

  Lemma not_apart_in t k l r : twf t → t = TNode l r → k ∈ tkeys t → ¬ apart t k.
  Proof. intros Hwf -> Hk. simpl. pose proof (twf_agree l r k Hwf Hk). lia. Qed.

  Lemma not_apart_child_l l r k : twf (TNode l r) → ¬ apart l k → (∃ l1 l2, l = TNode l1 l2) →
    tsplit l r ≤ klcp k (tmin l) ∧ bit k (tsplit l r) = false.
  Proof.
    intros Hwf Hap (l1 & l2 & ->). simpl in Hap. apply not_lt in Hap.
    pose proof (twf_split_l _ _ _ Hwf) as Hs. simpl. split; [lia|].
    rewrite (klcp_agree k (tmin l1)) by lia.
    change (tmin l1) with (tmin (TNode l1 l2)). apply tsplit_bits. by destruct Hwf as (_&_&?&_).
  Qed.
  Lemma not_apart_child_r l r k : twf (TNode l r) → ¬ apart r k → (∃ r1 r2, r = TNode r1 r2) →
    tsplit l r ≤ klcp k (tmin l) ∧ bit k (tsplit l r) = true.
  Proof.
    intros Hwf Hap (r1 & r2 & ->). simpl in Hap. apply not_lt in Hap.
    pose proof (twf_split_r _ _ _ Hwf) as Hs.
    assert (bit k (tsplit l (TNode r1 r2)) = true) as Hb.
    { rewrite (klcp_agree k (tmin r1)) by lia.
      change (tmin r1) with (tmin (TNode r1 r2)). apply tsplit_bits. by destruct Hwf as (_&_&?&_). }
    split; [|done].
    pose proof (klcp_ultra k (tmin r1) (tmin l)) as Hu.
    rewrite (klcp_sym (tmin r1) (tmin l)) in Hu.
    change (klcp (tmin l) (tmin r1)) with (tsplit l (TNode r1 r2)) in Hu. lia.
  Qed.

  Lemma apart_split t k : {¬ apart t k ∧ ∃ l r, t = TNode l r} + {apart t k}.
  Proof.
    destruct t as [|l r]; [by right|]. simpl.
    destruct (decide (klcp k (tmin l) < tsplit l r)); [by right|left]. eauto.
  Qed.

  Lemma routed_left ks0 l r ks : twf (TNode l r) → routed ks0 (TNode l r) ks →
    routed ks0 l (zside l r ks).
  Proof.
    intros Hwf Hr k Hk Hin. assert (k ∈ tkeys (TNode l r)) as Hkt.
    { rewrite tkeys_node. apply elem_of_app. by left. }
    apply elem_of_list_filter. split; [by apply (twf_left l r)|].
    apply elem_of_list_filter. split; [by apply twf_agree|auto].
  Qed.
  Lemma routed_right ks0 l r ks : twf (TNode l r) → routed ks0 (TNode l r) ks →
    routed ks0 r (oside l r ks).
  Proof.
    intros Hwf Hr k Hk Hin. assert (k ∈ tkeys (TNode l r)) as Hkt.
    { rewrite tkeys_node. apply elem_of_app. by right. }
    apply elem_of_list_filter. split; [by apply (twf_right l r)|].
    apply elem_of_list_filter. split; [by apply twf_agree|auto].
  Qed.
  Lemma routed_br_left ks0 l r ks : twf (TNode l r) → routed_br ks0 (TNode l r) ks →
    routed_br ks0 l (zside l r ks).
  Proof.
    intros Hwf Hr k Hk Hap. destruct (apart_split l k) as [[_ Hn]|]; [|done].
    destruct (not_apart_child_l l r k Hwf Hap Hn) as [H1 H2].
    apply elem_of_list_filter. split; [done|]. apply elem_of_list_filter. split; [done|].
    apply Hr; [done|]. simpl. lia.
  Qed.
  Lemma routed_br_right ks0 l r ks : twf (TNode l r) → routed_br ks0 (TNode l r) ks →
    routed_br ks0 r (oside l r ks).
  Proof.
    intros Hwf Hr k Hk Hap. destruct (apart_split r k) as [[_ Hn]|]; [|done].
    destruct (not_apart_child_r l r k Hwf Hap Hn) as [H1 H2].
    apply elem_of_list_filter. split; [done|]. apply elem_of_list_filter. split; [done|].
    apply Hr; [done|]. simpl. lia.
  Qed.

  (** The pieces of a benign batch hold exactly the leaves that are not replaced. *)
  Lemma wdec_leaves M ks0 t ks : 0 < n → clean M ks0 t ks → ks ≠ [] → routed ks0 t ks →
    mjoin (tleaves <$> wdec (λ k, bool_decide (k ∈ ks0)) t ks) = filter (λ p, p.1 ∉ ks0) (tleaves t).
  Proof.
    intros Hn. revert ks. induction t as [k' e'|l IHl r IHr]; intros ks Hc Hne Hr.
    - simpl. rewrite filter_cons, filter_nil. simpl.
      destruct (decide (k' ∉ ks0)).
      + by rewrite bool_decide_false.
      + rewrite bool_decide_true; [done|]. by apply dec_stable.
    - destruct (clean_node M ks0 l r ks Hn Hc Hne) as (HD & Hsp & Hcl & Hcr).
      cbn [wdec]. destruct Hc as (_ & Hwf & _).
      pose proof (routed_left _ _ _ _ Hwf Hr) as HrL. pose proof (routed_right _ _ _ _ Hwf Hr) as HrR.
      destruct (node_desc ks (tsplit l r) (tmin l)) as [|d D].
      { simpl. rewrite app_nil_r. symmetry. rewrite filter_all; [done|].
        change (tleaves l ++ tleaves r) with (tleaves (TNode l r)).
        intros [k e] Hin Hk. simpl in Hk.
        assert (k ∈ tkeys (TNode l r)) as Hkt by (apply elem_of_tkeys; eauto).
        specialize (Hr k Hk Hkt). apply (elem_of_nil k). rewrite HD. apply elem_of_list_filter.
        split; [|done]. by apply twf_agree. }
      rewrite Hsp. cbn [fst snd tleaves]. clear Hsp. rewrite fmap_app, mjoin_app, filter_app.
      f_equal.
      + destruct (zside l r ks) as [|z zs] eqn:Hz.
        * simpl. rewrite app_nil_r. symmetry. apply filter_all. intros [k e] Hin Hk. simpl in Hk.
          apply (elem_of_nil k). apply HrL; [done|]. apply elem_of_tkeys. eauto.
        * apply IHl; [done|done|done].
      + destruct (oside l r ks) as [|o os] eqn:Ho.
        * simpl. rewrite app_nil_r. symmetry. apply filter_all. intros [k e] Hin Hk. simpl in Hk.
          apply (elem_of_nil k). apply HrR; [done|]. apply elem_of_tkeys. eauto.
        * apply IHr; [done|done|done].
  Qed.

  (** No key of the batch, and no other key of the old tree, falls below the
      root branch of a piece. *)
  Lemma wdec_apart M ks0 t ks p z : 0 < n → clean M ks0 t ks → ks ≠ [] → routed_br ks0 t ks →
    p ∈ wdec (λ k, bool_decide (k ∈ ks0)) t ks → z ∈ ks0 → apart p z.
  Proof.
    intros Hn. revert ks. induction t as [k' e'|l IHl r IHr]; intros ks Hc Hne Hr Hp Hz.
    - simpl in Hp. destruct (bool_decide _); [by apply elem_of_nil in Hp|].
      apply elem_of_list_singleton in Hp as ->. done.
    - destruct (clean_node M ks0 l r ks Hn Hc Hne) as (HD & Hsp & Hcl & Hcr).
      cbn [wdec] in Hp. destruct Hc as (_ & Hwf & _).
      pose proof (routed_br_left _ _ _ _ Hwf Hr) as HrL.
      pose proof (routed_br_right _ _ _ _ Hwf Hr) as HrR.
      destruct (node_desc ks (tsplit l r) (tmin l)) as [|d D].
      { apply elem_of_list_singleton in Hp as ->.
        destruct (apart_split (TNode l r) z) as [[Hap _]|]; [|done]. exfalso.
        apply (elem_of_nil z). rewrite HD. apply elem_of_list_filter. split; [simpl in Hap; lia|auto]. }
      rewrite Hsp in Hp. cbn [fst snd] in Hp. clear Hsp. apply elem_of_app in Hp as [Hp|Hp].
      + destruct (zside l r ks) as [|z' zs] eqn:Hzs; [|by eapply IHl].
        apply elem_of_list_singleton in Hp as ->.
        destruct (apart_split l z) as [[Hap _]|]; [|done]. exfalso.
        apply (elem_of_nil z). by apply HrL.
      + destruct (oside l r ks) as [|o' os] eqn:Hos; [|by eapply IHr].
        apply elem_of_list_singleton in Hp as ->.
        destruct (apart_split r z) as [[Hap _]|]; [|done]. exfalso.
        apply (elem_of_nil z). by apply HrR.
  Qed.
  (** The same two facts for batches that do not mislead. *)
  Lemma wdec_leaves_tidy M ks0 t ks : 0 < n → tidy M (λ _, True) ks0 t ks → routed ks0 t ks →
    mjoin (tleaves <$> wdec (λ k, bool_decide (k ∈ ks0)) t ks) = filter (λ p, p.1 ∉ ks0) (tleaves t).
  Proof.
    intros Hn. revert ks. induction t as [k' e'|l IHl r IHr]; intros ks Hc Hr.
    - simpl. rewrite filter_cons, filter_nil. simpl.
      destruct (decide (k' ∉ ks0)).
      + by rewrite bool_decide_false.
      + rewrite bool_decide_true; [done|]. by apply dec_stable.
    - destruct (tidy_node M _ ks0 l r ks Hn Hc) as (Hcl & Hcr & Hd).
      destruct Hc as (_ & Hwf & _ & _ & Hs).
      assert (∀ k, k ∈ ks0 → k ∈ tkeys (TNode l r) → k ∈ node_desc ks (tsplit l r) (tmin l)) as HrD.
      { intros k Hk Hin. apply desc_true; auto. by apply twf_agree. }
      assert (routed ks0 l (zpart l r ks)) as HrL.
      { intros k Hk Hin. assert (k ∈ tkeys (TNode l r)) as Hkt by (rewrite tkeys_node; apply elem_of_app; by left).
        apply (Hd k); [auto|done|by apply twf_agree|by apply (twf_left l r)]. }
      assert (routed ks0 r (opart l r ks)) as HrR.
      { intros k Hk Hin. assert (k ∈ tkeys (TNode l r)) as Hkt by (rewrite tkeys_node; apply elem_of_app; by right).
        apply (Hd k); [auto|done|by apply twf_agree|by apply (twf_right l r)]. }
      clear Hd. unfold zpart, opart in *. cbn [wdec].
      destruct (node_desc ks (tsplit l r) (tmin l)) as [|d D].
      { simpl. rewrite app_nil_r. symmetry. rewrite filter_all; [done|].
        change (tleaves l ++ tleaves r) with (tleaves (TNode l r)).
        intros [k e] Hin Hk. simpl in Hk. apply (elem_of_nil k). apply HrD; [done|].
        apply elem_of_tkeys. eauto. }
      destruct (node_split (d :: D) (tsplit l r)) as [zs os]. cbn [fst snd tleaves] in *.
      rewrite fmap_app, mjoin_app, filter_app.
      f_equal.
      + destruct zs as [|z zs].
        * simpl. rewrite app_nil_r. symmetry. apply filter_all. intros [k e] Hin Hk. simpl in Hk.
          apply (elem_of_nil k). apply HrL; [done|]. apply elem_of_tkeys. eauto.
        * by apply IHl.
      + destruct os as [|o os].
        * simpl. rewrite app_nil_r. symmetry. apply filter_all. intros [k e] Hin Hk. simpl in Hk.
          apply (elem_of_nil k). apply HrR; [done|]. apply elem_of_tkeys. eauto.
        * by apply IHr.
  Qed.
  Lemma wdec_apart_tidy M ks0 t ks p z : 0 < n → tidy M (λ _, True) ks0 t ks → routed_br ks0 t ks →
    p ∈ wdec (λ k, bool_decide (k ∈ ks0)) t ks → z ∈ ks0 → apart p z.
  Proof.
    intros Hn. revert ks. induction t as [k' e'|l IHl r IHr]; intros ks Hc Hr Hp Hz.
    - simpl in Hp. destruct (bool_decide _); [by apply elem_of_nil in Hp|].
      apply elem_of_list_singleton in Hp as ->. done.
    - destruct (tidy_node M _ ks0 l r ks Hn Hc) as (Hcl & Hcr & Hd).
      destruct Hc as (_ & Hwf & _ & _ & Hs).
      assert (∀ k, k ∈ ks0 → ¬ apart (TNode l r) k → k ∈ node_desc ks (tsplit l r) (tmin l)) as HrD.
      { intros k Hk Hap. apply desc_true; auto. simpl in Hap. lia. }
      assert (routed_br ks0 l (zpart l r ks)) as HrL.
      { intros k Hk Hap. destruct (apart_split l k) as [[_ Hnd]|]; [|done].
        destruct (not_apart_child_l l r k Hwf Hap Hnd) as [H1 H2].
        apply (Hd k); [|done|done|done]. apply Hr; [done|]. simpl. lia. }
      assert (routed_br ks0 r (opart l r ks)) as HrR.
      { intros k Hk Hap. destruct (apart_split r k) as [[_ Hnd]|]; [|done].
        destruct (not_apart_child_r l r k Hwf Hap Hnd) as [H1 H2].
        apply (Hd k); [|done|done|done]. apply Hr; [done|]. simpl. lia. }
      clear Hd. unfold zpart, opart in *. cbn [wdec] in Hp.
      destruct (node_desc ks (tsplit l r) (tmin l)) as [|d D].
      { apply elem_of_list_singleton in Hp as ->.
        destruct (apart_split (TNode l r) z) as [[Hap _]|]; [|done]. exfalso.
        apply (elem_of_nil z). by apply HrD. }
      destruct (node_split (d :: D) (tsplit l r)) as [zs os]. cbn [fst snd] in *.
      apply elem_of_app in Hp as [Hp|Hp].
      + destruct zs as [|z' zs]; [|by eapply IHl].
        apply elem_of_list_singleton in Hp as ->.
        destruct (apart_split l z) as [[Hap _]|]; [|done]. exfalso.
        apply (elem_of_nil z). by apply HrL.
      + destruct os as [|o' os]; [|by eapply IHr].
        apply elem_of_list_singleton in Hp as ->.
        destruct (apart_split r z) as [[Hap _]|]; [|done]. exfalso.
        apply (elem_of_nil z). by apply HrR.
  Qed.
  Lemma sub_apart t p z : twf t → subtrie p t → z ∈ tkeys t → z ∉ tkeys p → apart p z.
  Proof.
    intros Hwf Hs. induction Hs as [t|p l r Hs IH|p l r Hs IH]; intros Hz Hni; [done| |].
    - pose proof Hwf as (Hl & Hr & _). rewrite tkeys_node in Hz. apply elem_of_app in Hz as [Hz|Hz]; [auto|].
      destruct p as [|p1 p2]; [done|]. simpl.
      assert (tmin p1 ∈ tkeys (TNode p1 p2)) as Hp1 by (rewrite tkeys_node; apply elem_of_app; left; apply tmin_in).
      assert (tmin p2 ∈ tkeys (TNode p1 p2)) as Hp2 by (rewrite tkeys_node; apply elem_of_app; right; apply tmin_in).
      apply (subtrie_keys _ _ _ Hs) in Hp1, Hp2.
      destruct (twf_cross l r (tmin p1) z Hwf Hp1 Hz) as [He _]. rewrite klcp_sym, He.
      unfold tsplit at 2. apply (twf_left l r) in Hp1 as [Ha _], Hp2 as [Hb _]; [|done|done].
      pose proof (klcp_ultra (tmin p1) (tmin l) (tmin p2)) as Hu. rewrite (klcp_sym (tmin l) (tmin p2)) in Hu. lia.
    - pose proof Hwf as (Hl & Hr & _). rewrite tkeys_node in Hz. apply elem_of_app in Hz as [Hz|Hz]; [|auto].
      destruct p as [|p1 p2]; [done|]. simpl.
      assert (tmin p1 ∈ tkeys (TNode p1 p2)) as Hp1 by (rewrite tkeys_node; apply elem_of_app; left; apply tmin_in).
      assert (tmin p2 ∈ tkeys (TNode p1 p2)) as Hp2 by (rewrite tkeys_node; apply elem_of_app; right; apply tmin_in).
      apply (subtrie_keys _ _ _ Hs) in Hp1, Hp2.
      destruct (twf_cross l r z (tmin p1) Hwf Hz Hp1) as [He _]. rewrite He.
      unfold tsplit at 2. apply (twf_right l r) in Hp1 as (_&Ha&_), Hp2 as (_&Hb&_); [|done|done].
      pose proof (klcp_ultra (tmin p1) (tmin r) (tmin p2)) as Hu. rewrite (klcp_sym (tmin r) (tmin p2)) in Hu. lia.
  Qed.
  (** A piece other than the whole tree hangs below a branch that a key of the
      batch passes. *)
  Lemma wdec_parent M ks0 t ks p : 0 < n → clean M ks0 t ks → ks ≠ [] →
    p ∈ wdec (λ k, bool_decide (k ∈ ks0)) t ks →
    p = t ∨ ∃ l r z, subtrie (TNode l r) t ∧ (p = l ∨ p = r) ∧ z ∈ ks0 ∧ ¬ apart (TNode l r) z.
  Proof.
    intros Hn. revert ks. induction t as [k' e'|l IHl r IHr]; intros ks Hc Hne Hp.
    - simpl in Hp. destruct (bool_decide _); [by apply elem_of_nil in Hp|].
      apply elem_of_list_singleton in Hp as ->. by left.
    - pose proof Hc as (_ & _ & _ & Hsub & _).
      destruct (clean_node M ks0 l r ks Hn Hc Hne) as (HD & Hsp & Hcl & Hcr).
      cbn [wdec] in Hp. destruct Hc as (_ & Hwf & _).
      destruct (node_desc ks (tsplit l r) (tmin l)) as [|d D].
      { left. by apply elem_of_list_singleton in Hp. }
      assert (d ∈ ks0 ∧ ¬ apart (TNode l r) d) as [Hd1 Hd2].
      { assert (d ∈ d :: D) as Hd by (by left). rewrite HD in Hd.
        apply elem_of_list_filter in Hd as [Hd1 Hd2]. split; [auto|]. simpl. lia. }
      right. rewrite Hsp in Hp. cbn [fst snd] in Hp. clear Hsp. apply elem_of_app in Hp as [Hp|Hp].
      + assert (p = l ∨ ∃ l' r' z, subtrie (TNode l' r') l ∧ (p = l' ∨ p = r') ∧ z ∈ ks0 ∧
          ¬ apart (TNode l' r') z) as [->|(l' & r' & z & Hs & Hpp & Hz & Hap)].
        { destruct (zside l r ks) as [|z' zs]; [left; by apply elem_of_list_singleton in Hp|].
          by eapply IHl. }
        * exists l, r, d. split_and!; [constructor|by left|done|done].
        * exists l', r', z. split_and!; [by constructor|done|done|done].
      + assert (p = r ∨ ∃ l' r' z, subtrie (TNode l' r') r ∧ (p = l' ∨ p = r') ∧ z ∈ ks0 ∧
          ¬ apart (TNode l' r') z) as [->|(l' & r' & z & Hs & Hpp & Hz & Hap)].
        { destruct (oside l r ks) as [|z' zs]; [left; by apply elem_of_list_singleton in Hp|].
          by eapply IHr. }
        * exists l, r, d. split_and!; [constructor|by right|done|done].
        * exists l', r', z. split_and!; [by constructor|done|done|done].
  Qed.

  (** Tries that are pairwise apart are separated in key order. *)
  Lemma bgood_apart (ts : list (trie n)) :
    StronglySorted klt (tmin <$> ts) → Forall twf ts →
    (∀ p q, p ∈ ts → q ∈ ts → tmin p ≠ tmin q → apart p (tmin q)) → bgood ts.
  Proof.
    intros Hs Hwf Hap. induction ts as [|l ts IH]; [done|].
    apply Forall_cons in Hwf as [Hwl Hwf]. rewrite fmap_cons in Hs.
    apply StronglySorted_inv in Hs as [Hs F].
    split; [done|]. split.
    - destruct ts as [|r ts]; [done|]. rewrite fmap_cons in F. apply Forall_cons in F as [Hlt _].
      apply Forall_cons in Hwf as [Hwr _].
      assert (∀ p q, twf p → tmin p ≠ tmin q → apart p (tmin q) →
        ∀ k, k ∈ tkeys p → klcp (tmin p) (tmin q) < klcp k (tmin p)) as Haux.
      { intros [kp ep|p1 p2] q Hwp Hne Hpq k Hk.
        - apply elem_of_list_singleton in Hk as ->. simpl. rewrite klcp_refl. by apply klcp_lt.
        - simpl in Hpq |- *. pose proof (twf_agree p1 p2 k Hwp Hk). rewrite klcp_sym. lia. }
      pose proof (klt_ne _ _ Hlt) as Hne.
      split; intros k Hk.
      + apply Haux; [done|done| |done]. apply Hap; [by left|right; by left|done].
      + unfold tsplit. rewrite (klcp_sym (tmin l)). apply Haux; [done|done| |done].
        apply Hap; [right; by left|by left|done].
    - apply IH; [done|done|]. intros p q Hp Hq. apply Hap; by right.
  Qed.
End Route.
