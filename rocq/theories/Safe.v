(** * Insertion with arbitrary arguments
    Whatever the previous root is, every state an insertion goes through is
    well formed and contains everything that was visible before. *)
From Coq Require Import Strings.Byte NArith.
From stdpp Require Import prelude countable gmap sorting strings.
From Verif Require Import Model Bits Spec Util Trie Store Logic Build Evol Route Insert.

Local Open Scope nat_scope.

Section Safe.
  Context {n : nat} (Hn : 0 < n) (H : list bytes → arr n).
  Context (S : list bytes → Prop) (Hinj : inj_on H S).
  Context (B : backend n) {HB : BackendOk B}.
  Context {V : Type} (encode : V → res bytes) (Henc : ∀ v, encode v ≠ Pan) (max_depth : nat).
  Implicit Types (t : trie n) (m : db n) (k : arr n) (e : bytes).
  Implicit Types (vm : gmap (arr n) V) (ks : list (arr n)).
  Notation anyk := (λ (_ : arr n) (_ : bytes), True).
  Notation anyt := (λ _ : trie n, True).

  Lemma J_weaken m0 m0' s : cle m0' m0 → J H S B m0 s → J H S B m0' s.
  Proof. intros Hc (?&?&?&?). split_and!; try done. by eapply cle_trans. Qed.
  Lemma J_rebase m0 s : J H S B m0 s → J H S B (b_vis B s) s.
  Proof. intros (?&?&?&?). split_and!; try done. apply cle_refl. Qed.

  (** Until the merging starts, writes are only queued. *)
  Lemma insert_leaves_puts vm ks : puts_only (insert_leaves encode vm ks).
  Proof using.
    induction ks as [|k ks IH]; [done|]. cbn [insert_leaves].
    apply puts_only_bind; [|intros l; by apply puts_only_bind].
    unfold insert_leaves_one. destruct (vm !! k); [|done]. apply puts_only_bind; [apply puts_only_lift|]. done.
  Qed.
  Lemma traverse_puts fuel (km : gmap (arr n) (arr n)) acc q : puts_only (traverse_tree max_depth fuel km acc q).
  Proof using.
    assert (Hleaf : ∀ l, puts_only (insert_leaf (n := n) l)) by (intros l [nd|]; done).
    assert (Hsplit : ∀ d b nl, puts_only (split_nodes (n := n) d b nl)).
    { intros d b nl. unfold split_nodes. apply puts_only_bind; [done|]. intros [nd|]; [|done].
      destruct nl; [|done]. by destruct (var nd). }
    revert acc q. induction fuel as [|fuel IH]; intros acc q; (destruct q as [|c q]; [done|]); [done|].
    cbn [traverse_tree]. destruct (max_depth <? cdepth c); [done|].
    destruct (var (cnode c)) as [count zero one si bk|lk ld|]; [| |done].
    - apply puts_only_bind; [apply puts_only_lift|]. intros m.
      apply puts_only_bind; [destruct (m <? si); [apply puts_only_lift|done]|]. intros ds.
      destruct ((m <? si) && (length ds =? 0)); [apply IH|].
      apply puts_only_bind; [apply puts_only_lift|]. intros zo.
      apply puts_only_bind; [apply Hsplit|]. intros r1. destruct (push_split r1 acc q) as [acc1 q1].
      apply puts_only_bind; [apply Hsplit|]. intros r0. destruct (push_split r0 acc1 q1) as [acc2 q2]. apply IH.
    - destruct (km !! lk) as [l|]; [destruct (decide (l = cloc c))|];
        try (apply puts_only_bind; [apply Hleaf|]; intros _); apply IH.
  Qed.
  Lemma generate_treerefs_puts (root : arr n) ks km : puts_only (generate_treerefs max_depth root ks km).
  Proof using. intros [nd|]; [|done]. apply traverse_puts. Qed.

  Theorem insert_sorted_safe m0 prev ks vm s :
    J H S B m0 s → ksorted ks → ks ≠ [] → (∀ k, k ∈ ks → is_Some (vm !! k)) →
    wp B H S (J H S B m0) (insert_sorted encode max_depth prev ks vm)
      (λ lc s', J H S B m0 s' ∧ b_vis B s' = bview s' ∧ bpend s' = [] ∧
         ∃ t, lc = troot H t ∧ tok H S (b_vis B s') t ∧ NoDup ks)
      (λ er s', J H S B m0 s' ∧ queued B s s') s.
  Proof.
    intros HJ Hso Hne Hvm.
    assert (G H S (proper H S) B m0 s (bview s, bpend s, [])) as HG.
    { split_and!; simpl; auto; apply HJ. }
    unfold insert_sorted. apply wp_bind.
    eapply wp_mono; [| |apply wp_queued; [apply insert_leaves_puts|];
      apply (insert_leaves_wp Hn H S Hinj no_floor (proper H S) (proper_keeps H S Hinj) B m0 encode Henc anyk anyt anyk vm ks s _ _ _ HG)].
    3:{ done. }
    3:{ done. }
    2:{ intros er s' [[HJ' Her] Hq]. done. }
    intros ls s1 [(es & m1 & P1 & ts1 & Hes & -> & Hts1 & Hev1 & HG1) Hq1].
    assert (length ks = length es) as Hlen by (by eapply Forall2_length).
    assert (Forall2 (λ k e, encg encode vm k = Some e) ks es) as Hes1.
    { eapply Forall2_impl; [exact Hes|]. intros k e (Hv & _). by apply encg_Some. }
    rewrite app_nil_r in Hts1. fold (new_tries ks es) in Hts1.
    rewrite new_refs.
    set (km := key_map_of ks (zip_with (lloc H) ks es)).
    assert (J H S B m0 s1) as HJ1 by (by eapply G_J).
    apply wp_bind.
    eapply (wp_mono B H S _ _ (λ rs s2, ∃ ps m2 P2 ts2, rs = ref_of H <$> ps ∧
        ts2 ≡ₚ ps ++ ts1 ∧ G H S (proper H S) B m0 s2 (m2, P2, ts2) ∧ queued B s s2)
      _ (λ er s2, J H S B m0 s2 ∧ queued B s s2)).
    - intros rs s2 (ps & m2 & P2 & ts2 & -> & Hts2 & HG2 & Hq2).
      rewrite <- fmap_app.
      assert (ts2 ≡ₚ new_tries ks es ++ ps) as Hperm.
      { rewrite Hts2, Hts1. apply Permutation_app_comm. }
      assert (new_tries ks es ++ ps ≠ []) as Hnn.
      { destruct ks, es; done. }
      eapply wp_mono; [| |apply (create_tree_wp Hn H S no_floor anyk anyt anyk
          (proper H S) (proper_keeps H S Hinj) B m0 (new_tries ks es ++ ps) s2 m2 P2); [|done|]].
      + intros lc s3 (m3 & P3 & t & ts3 & -> & Hev3 & HG3 & Hts3 & Hsort & Hlv & Hgd & Hvis & Hpend).
        split; [by eapply G_J|]. split_and!; try done. exists t. split_and!; [done| |].
        * rewrite Hvis. destruct HG3 as (_ & Hv3 & _ & Ht). rewrite Hv3. by inversion Ht.
        * apply klt_sorted_nodup in Hsort. rewrite Hts3, fmap_app in Hsort.
          apply NoDup_app in Hsort as [Hsort _].
          assert (tmin <$> new_tries ks es = ks) as <-; [|done].
          clear -Hlen. revert es Hlen. induction ks as [|k ks IH]; intros [|e es] Hl; try done.
          cbn. f_equal. apply IH. by injection Hl.
      + by intros er s3 (HJ3 & _ & _ & ->).
      + by eapply G_perm.
      + intros ts0 _ _ x bs1 l r bs2 _ _ _ _ _ _. lia.
    - done.
    - destruct prev as [root|].
      2:{ cbn. exists [], m1, P1, ts1. split_and!; done. }
      eapply wp_mono; [| |apply (wp_queued B H S (J H S B m0) _
        (λ rs s2, ∃ ps m2 P2 ts2, rs = ref_of H <$> ps ∧ ts2 ≡ₚ ps ++ ts1 ∧ G H S (proper H S) B m0 s2 (m2, P2, ts2))
        (λ er s2, J H S B m0 s2)); [apply generate_treerefs_puts|]].
      { intros rs s2 [(ps & m2 & P2 & ts2 & ? & ? & HG2) Hq2]. exists ps, m2, P2, ts2.
        split_and!; [done|done|exact HG2|by eapply queued_trans]. }
      { intros er s2 [HJ2 Hq2]. split; [exact HJ2|by eapply queued_trans]. }
      unfold generate_treerefs. cbn [get_node mbind prog_bind pbind Logic.wp].
      destruct (b_vis B s1 !! root) as [nd|] eqn:Hroot; [|done].
      destruct HJ1 as (Hp1 & Hp2 & Hc1 & Hc2).
      destruct (Hp1 root nd Hroot) as (o & Hopre & Hopwf & Ho & Hvar & Host).
      destruct o as [t0|k0 e0].
      + assert (G H S (proper H S) B (b_vis B s1) s1 (m1, P1, ts1)) as HG1'.
        { destruct HG1 as (HJ1 & ?). split; [by eapply J_rebase|done]. }
        assert (stored H (b_vis B s1) t0) as Hst.
        { apply (ostored_iff H (b_vis B s1) (OT t0)). split; [|done].
          unfold has. cbn [oloc] in *. rewrite Ho, Hroot. cbn. by rewrite <- Hvar. }
        destruct nd as [rf nv]. simpl in Hvar. subst nv root.
        eapply wp_weaken; [done| |].
        { intros s'. by apply J_weaken. }
        eapply wp_mono; [| |apply (traverse_wp Hn H S Hinj no_floor (proper H S) (proper_keeps H S Hinj) B (b_vis B s1) encode Henc max_depth anyk anyt anyk
           km _ [] _ [t0] s1 m1 P1 ts1 HG1')].
        * intros rs s2 (ps & m2 & P2 & ts2 & -> & Hps & Hts2 & Hev2 & HG2 & Hdd).
          exists ps, m2, P2, ts2. split_and!; try done.
          destruct HG2 as (HJ2 & ?). split; [by eapply J_weaken|done].
        * intros er s2 (HJ2 & _). by eapply J_weaken.
        * repeat constructor; try done; [|simpl; lia]. simpl. intros Hni.
          change (oloc H (OT t0)) with (troot H t0) in *.
          rewrite (G_vis _ _ _ _ _ _ _ _ _ _ HG1 Hni) in Hroot. unfold nrefs. by rewrite Hroot.
        * intros k lc Hlc. unfold km in Hlc.
          rewrite (key_map_lookup ks es (lloc H) (encg encode vm) k Hes1) in Hlc.
          destruct (decide (k ∈ ks)) as [Hin|]; [|done].
          apply elem_of_list_lookup_1 in Hin as Hin'. destruct Hin' as [i Hi].
          destruct (Forall2_lookup_l _ _ _ _ _ Hes Hi) as (e & Hei & Hv & Hd & Hl & HP).
          apply encg_Some in Hv as Hv'. rewrite Hv' in Hlc. injection Hlc as <-.
          exists e. split_and!; [done|done|done|by repeat constructor].
        * unfold traverse_fuel, measure. cbn. lia.
        * intros c ->%elem_of_list_singleton. simpl. lia.
        * done.
      + destruct nd as [rf nv]. simpl in Hvar. subst nv.
        unfold traverse_fuel. rewrite Nat.add_comm. cbn. done.
  Qed.

  Lemma value_map_some ks (vs : list V) k : length ks = length vs → k ∈ ks →
    is_Some (value_map_of ks vs !! k).
  Proof.
    intros Hlen Hk. unfold value_map_of. rewrite foldl_insert_lookup.
    destruct (last _) eqn:Hl; [eauto|]. apply last_None in Hl. exfalso.
    assert (k ∈ (zip ks vs).*1) as Hin by (by rewrite fst_zip by lia).
    apply elem_of_list_fmap in Hin as (p & -> & Hp).
    apply (elem_of_nil p). rewrite <- Hl. by apply elem_of_list_filter.
  Qed.
  Lemma value_map_zip ks (vs : list V) : length ks = length vs → NoDup ks →
    value_map_of ks vs = list_to_map (zip ks vs).
  Proof.
    intros Hlen Hnd. apply map_eq. intros k. unfold value_map_of. rewrite foldl_insert_lookup.
    destruct (list_to_map (zip ks vs) !! k) as [v|] eqn:Hk.
    - apply elem_of_list_to_map_2 in Hk. 
      destruct (last _) as [p|] eqn:Hl.
      + apply last_Some_elem_of in Hl. apply elem_of_list_filter in Hl as [<- Hp].
        destruct p as [k' v']. simpl in *. f_equal.
        assert (NoDup (zip ks vs).*1) as Hnd' by (by rewrite fst_zip by lia).
        apply (elem_of_list_to_map (M := gmap (arr n)) _ _ _ Hnd') in Hp, Hk. congruence.
      + apply last_None in Hl. exfalso. apply (elem_of_nil (k, v)). rewrite <- Hl.
        by apply elem_of_list_filter.
    - apply not_elem_of_list_to_map_2 in Hk.
      destruct (last _) as [p|] eqn:Hl; [|done].
      apply last_Some_elem_of in Hl. apply elem_of_list_filter in Hl as [<- Hp]. exfalso. apply Hk.
      apply elem_of_list_fmap. eauto.
  Qed.

  Theorem insert_safe m0 prev ks vs s :
    J H S B m0 s →
    wp B H S (J H S B m0) (insert encode max_depth prev ks vs)
      (λ lc s', J H S B m0 s' ∧ b_vis B s' = bview s' ∧ bpend s' = [] ∧
         ∃ t, lc = troot H t ∧ tok H S (b_vis B s') t ∧ NoDup ks)
      (λ er s', J H S B m0 s' ∧ queued B s s') s.
  Proof.
    intros HJ. unfold insert. pose proof (queued_refl B s).
    destruct (Nat.eqb_spec (length ks) (length vs)) as [Hlen|]; [|done]. simpl.
    destruct (Nat.eqb_spec (length ks) 0) as [|Hne]; [done|].
    destruct (Nat.eqb_spec (length vs) 0) as [|Hne']; [done|]. simpl.
    eapply wp_mono; [| |apply (insert_sorted_safe m0 prev (sort_keys ks) (value_map_of ks vs) s HJ)].
    - intros lc s' (?&?&?&t&?&?&Hnd). split_and!; try done. exists t. split_and!; try done.
      by rewrite sort_keys_perm in Hnd.
    - done.
    - apply sort_keys_sorted.
    - intros Hnil. apply Hne. rewrite <- sort_keys_length, Hnil. done.
    - intros k Hk. apply value_map_some; [done|]. by apply elem_of_sort_keys.
  Qed.

  (** [insert_one] is a one-key [insert] (as programs). *)
  Lemma insert_one_insert prev k (v : V) :
    insert_one encode max_depth prev k v = insert encode max_depth prev [k] [v].
  Proof. done. Qed.
End Safe.
