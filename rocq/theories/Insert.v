(** * Insertion *)
From Coq Require Import Strings.Byte NArith.
From stdpp Require Import prelude countable gmap sorting strings.
From Verif Require Import Model Bits Spec Util Trie Store Logic Build Evol Route.

Local Open Scope nat_scope.

Section Insert.
  Context {n : nat} (Hn : 0 < n) (H : list bytes → arr n).
  Context (S : list bytes → Prop) (Hinj : inj_on H S).
  Context (fl : arr n → nat) (pr : db n → Prop) (Hkp : keeps H S fl pr).
  Context (B : backend n) {HB : BackendOk B} (m0 : db n).
  Context {V : Type} (encode : V → res bytes) (Henc : ∀ v, encode v ≠ Pan) (max_depth : nat).
  Context (isnew : arr n → bytes → Prop) (piece : trie n → Prop) (dup : arr n → bytes → Prop).
  Implicit Types (t : trie n) (m : db n) (P : list (arr n)) (ts : list (trie n)) (k : arr n) (e : bytes).
  Implicit Types (x : ist (n := n)).
  Notation ev := (ev H S fl isnew piece dup).
  Notation G := (G H S pr B m0).
  Notation J := (Jp pr B m0).
  Notation wp := (wp B H S J).

  Lemma ev_frame m P ts m' P' ts' : ev (m, P, ts) (m', P', ts') →
    (∀ lc, lc ∈ P → lc ∈ P') ∧ (∀ lc, lc ∉ P' → m' !! lc = m !! lc).
  Proof.
    inversion 1; subst; (split; [intros lc Hlc; set_solver|]); intros lc Hlc;
      repeat (rewrite lookup_insert_ne by set_solver); done.
  Qed.
  Lemma evs_frame x x' : rtc ev x x' →
    (∀ lc, lc ∈ x.1.2 → lc ∈ x'.1.2) ∧ (∀ lc, lc ∉ x'.1.2 → x'.1.1 !! lc = x.1.1 !! lc).
  Proof.
    induction 1 as [|[[m P] ts] [[m' P'] ts'] [[m'' P''] ts''] Hev _ [IH1 IH2]]; [done|].
    simpl in *. apply ev_frame in Hev as [H1 H2]. split; [naive_solver|].
    intros lc Hlc. rewrite IH2 by done. apply H2. naive_solver.
  Qed.

  Lemma ev_perm m P ts m' P' ts' ts2 : ev (m, P, ts) (m', P', ts') → ts ≡ₚ ts2 →
    ∃ ts2', ev (m, P, ts2) (m', P', ts2') ∧ ts' ≡ₚ ts2'.
  Proof.
    inversion 1; subst; intros Hp.
    - eexists. split; [by apply ev_leaf|by rewrite Hp].
    - eexists. split; [by apply ev_piece|by rewrite Hp].
    - eexists. split; [by apply ev_again|done].
    - eexists. split; [apply ev_merge; [|done|done]|done]. by rewrite <- Hp.
  Qed.
  Lemma evs_perm x x' ts2 t : rtc ev x x' → x.2 ≡ₚ ts2 → x'.2 = [t] → rtc ev (x.1, ts2) x'.
  Proof.
    intros Hr. revert ts2. induction Hr as [[mP ts]|[[m P] ts] [[m' P'] ts'] x'' Hev Hr IH];
      intros ts2 Hp Ht; simpl in *.
    - subst ts. apply Permutation_singleton_l in Hp as ->. done.
    - destruct (ev_perm _ _ _ _ _ _ _ Hev Hp) as (ts2' & Hev' & Hp').
      econstructor; [exact Hev'|]. by apply IH.
  Qed.

  Lemma evs_perm_ex x x' ts2 : rtc ev x x' → x.2 ≡ₚ ts2 →
    ∃ ts2', rtc ev (x.1, ts2) (x'.1, ts2') ∧ x'.2 ≡ₚ ts2'.
  Proof.
    intros Hr. revert ts2. induction Hr as [[mP ts]|[[m P] ts] [[m' P'] ts'] x'' Hev Hr IH];
      intros ts2 Hp; simpl in *; [by exists ts2|].
    destruct (ev_perm _ _ _ _ _ _ _ Hev Hp) as (ts2' & Hev' & Hp').
    destruct (IH ts2' Hp') as (ts3 & ? & ?). exists ts3. split; [|done]. by econstructor.
  Qed.

  (** ** Leaves *)
  Lemma insert_leaves_one_wp vm k s m P ts : G s (m, P, ts) → is_Some (vm !! k) →
    (∀ v e, vm !! k = Some v → encode v = Ok e → isnew k e) →
    wp (insert_leaves_one encode vm k)
      (λ lc s', ∃ v e m' , vm !! k = Some v ∧ encode v = Ok e ∧ lc = lloc H k e ∧
         S (data_in k e) ∧ S (leaf_in k (dloc H k e)) ∧
         ev (m, P, ts) (m', lc :: dloc H k e :: P, TLeaf k e :: ts) ∧
         G s' (m', lc :: dloc H k e :: P, TLeaf k e :: ts))
      (λ er s', J s' ∧ ∃ v, vm !! k = Some v ∧ encode v = Err er) s.
  Proof.
    intros HG [v Hv] Hnew. unfold insert_leaves_one. rewrite Hv.
    destruct (encode v) as [e|er|] eqn:He; [| |by apply Henc in He].
    2:{ cbn. split; [by eapply G_J|]. eauto. }
    cbn [lift mbind prog_bind pbind hash wp]. intros Hd. fold (dloc H k e). intros Hl. fold (lloc H k e).
    cbn [get_node mbind prog_bind pbind db_insert mret prog_ret Logic.wp].
    pose proof (G_bumped H S fl pr Hkp B m0 _ _ _ _ (dloc H k e) HG) as Hbd.
    pose proof (G_bumped H S fl pr Hkp B m0 _ _ _ _ (lloc H k e) HG) as Hbl.
    set (rd := match b_vis B s !! dloc H k e with Some nd => refs nd + 1 | None => 1 end) in *.
    set (rl := match b_vis B s !! lloc H k e with Some nd => refs nd + 1 | None => 1 end) in *.
    destruct (G_put H S fl pr Hkp B m0 s m P ts (OD k e) (Node rd (VData e)) HG) as [HG1 Hc1];
      [by apply Forall_singleton|done|done|done|simpl; destruct Hbd; lia|].
    change (oloc H (OD k e)) with (dloc H k e) in *.
    split; [by eapply G_J|].
    destruct (G_put H S fl pr Hkp B m0 _ _ _ ts (OT (TLeaf k e)) (Node rl (VLeaf k (dloc H k e))) HG1) as [HG2 Hc2];
      [by repeat constructor|done|done| |simpl; destruct Hbl; lia|].
    { simpl. apply has_insert. by left. }
    change (oloc H (OT (TLeaf k e))) with (lloc H k e) in *.
    split; [by eapply G_J|].
    exists v, e, (<[lloc H k e := Node rl (VLeaf k (dloc H k e))]> (<[dloc H k e := Node rd (VData e)]> m)).
    split_and!; try done.
    - apply ev_leaf; try done. eauto.
    - apply G_push; [done|]. split_and!; [|done|by repeat constructor].
      simpl. split; [apply has_insert; by left|]. apply Hc2. apply has_insert. by left.
  Qed.

  Lemma insert_leaves_wp vm ks s m P ts : G s (m, P, ts) → (∀ k, k ∈ ks → is_Some (vm !! k)) →
    (∀ k v e, k ∈ ks → vm !! k = Some v → encode v = Ok e → isnew k e) →
    wp (insert_leaves encode vm ks)
      (λ ls s', ∃ es m' P' ts', Forall2 (λ k e, (∃ v, vm !! k = Some v ∧ encode v = Ok e) ∧
             S (data_in k e) ∧ S (leaf_in k (dloc H k e)) ∧ lloc H k e ∈ P') ks es ∧
         ls = zip_with (lloc H) ks es ∧ ts' ≡ₚ zip_with TLeaf ks es ++ ts ∧
         rtc ev (m, P, ts) (m', P', ts') ∧ G s' (m', P', ts'))
      (λ er s', J s' ∧ ∃ k v, k ∈ ks ∧ vm !! k = Some v ∧ encode v = Err er) s.
  Proof.
    revert s m P ts. induction ks as [|k ks IH]; intros s m P ts HG Hvm Hnew.
    - cbn. exists [], m, P, ts. split_and!; try done; constructor.
    - cbn [insert_leaves]. apply wp_bind.
      eapply wp_mono; [| |apply insert_leaves_one_wp; [exact HG|apply Hvm; by left|]].
      + intros lc s' (v & e & m' & Hv & He & -> & Hd & Hl & Hev & HG'). apply wp_bind.
        eapply wp_mono; [| |apply (IH _ _ _ _ HG')].
        * intros ls s'' (es & m'' & P'' & ts'' & Hf & -> & Hp & Hevs & HG''). cbn.
          exists (e :: es), m'', P'', ts''. split_and!; [|done| |by econstructor|done].
          -- constructor; [|done]. split_and!; [by exists v|done|done|].
             apply evs_frame in Hevs as [Hsub _]. apply Hsub. simpl. by left.
          -- rewrite Hp. cbn. by rewrite <- Permutation_middle.
        * intros er s'' [HJ (k' & v' & Hk' & ? & ?)]. split; [done|]. exists k', v'. split; [by right|done].
        * intros k' Hk'. apply Hvm. by right.
        * intros k' v' e' Hk'. apply Hnew. by right.
      + intros er s' [HJ (v & ? & ?)]. split; [done|]. exists k, v. split; [by left|done].
      + intros v e. apply Hnew. by left.
  Qed.

  (** ** Traversal of the old tree *)
  Definition cellok m P (c : cell) t : Prop :=
    cloc c = troot H t ∧ var (cnode c) = tvar H t ∧ stored H m0 t ∧ tpwf t ∧ Forall S (tpre H t) ∧
    ksorted (ckeys c) ∧ ckeys c ≠ [] ∧ (cloc c ∉ P → refs (cnode c) = nrefs m (cloc c)) ∧ fl (cloc c) ≤ refs (cnode c) ∧
    (∀ k e, subtrie (TLeaf k e) t → dup k e).

  Lemma cellok_evs m P ts m' P' ts' c t : rtc ev (m, P, ts) (m', P', ts') →
    cellok m P c t → cellok m' P' c t.
  Proof.
    intros Hev (?&?&?&?&?&?&?&Hr&?&?). split_and!; try done. intros Hni.
    apply evs_frame in Hev as [Hsub Hfr]. simpl in *. unfold nrefs. rewrite Hfr by done.
    apply Hr. naive_solver.
  Qed.
  Lemma cells_evs m P ts m' P' ts' q tq : rtc ev (m, P, ts) (m', P', ts') →
    Forall2 (cellok m P) q tq → Forall2 (cellok m' P') q tq.
  Proof. intros Hev Hq. eapply Forall2_impl; [exact Hq|]. intros c t. by eapply cellok_evs. Qed.

  Lemma G_stored s x t : G s x → stored H m0 t → stored H (b_vis B s) t ∧ stored H x.1.1 t.
  Proof.
    intros ((_ & _ & Hc1 & Hc2) & Hv & _) Ht. rewrite <- Hv.
    split; [by eapply stored_mono|]. eapply stored_mono; [exact Hc1|]. by eapply stored_mono.
  Qed.
  Lemma G_read s m P ts t : G s (m, P, ts) → stored H m0 t →
    ∃ rf, b_vis B s !! troot H t = Some (Node rf (tvar H t)) ∧ (troot H t ∉ P → rf = nrefs m (troot H t)) ∧
      fl (troot H t) ≤ rf.
  Proof.
    intros HG Ht. destruct (G_stored s _ t HG Ht) as [Hst _].
    apply stored_root, has_lookup in Hst as [rf Hrf]. exists rf. split_and!; [done| |].
    - intros Hni. rewrite (G_vis _ _ _ _ _ _ _ _ _ _ HG Hni) in Hrf. unfold nrefs. by rewrite Hrf.
    - destruct HG as ((Hp & _) & _). pose proof (keeps_fl H S fl pr Hkp _ (troot H t) Hp) as Hf.
      unfold nrefs in Hf. by rewrite Hrf in Hf.
  Qed.

  (** Reusing a subtrie: one more reference to its root. *)
  Lemma piece_step s m P ts t rf : G s (m, P, ts) → stored H m0 t → tpwf t → Forall S (tpre H t) →
    piece t → (troot H t ∉ P → rf = nrefs m (troot H t)) → fl (troot H t) ≤ rf →
    let s' := b_put B s (troot H t) (Node (rf + 1) (tvar H t)) in
    let m' := <[troot H t := Node (rf + 1) (tvar H t)]> m in
    ev (m, P, ts) (m', troot H t :: P, t :: ts) ∧ G s' (m', troot H t :: P, t :: ts) ∧ J s'.
  Proof.
    intros HG Ht Hw Hpre Hpc Hrf Hfl. cbv zeta.
    destruct (G_stored s _ t HG Ht) as [_ Hst]. simpl in Hst.
    destruct (G_put H S fl pr Hkp B m0 s m P ts (OT t) (Node (rf + 1) (tvar H t)) HG) as [HG' Hc]; try done.
    { by apply (ostored_iff H m (OT t)). }
    { simpl. lia. }
    change (oloc H (OT t)) with (troot H t) in *.
    split_and!.
    - apply ev_piece; try done. split; [|lia]. intros Hni. by rewrite Hrf.
    - apply G_push; [done|]. split_and!; [|done|done]. by eapply stored_mono.
    - by eapply G_J.
  Qed.
  Lemma again_step s m P ts k e rf : G s (m, P, ts) → stored H m0 (TLeaf k e) →
    Forall S (tpre H (TLeaf k e)) → isnew k e → dup k e → lloc H k e ∈ P → fl (lloc H k e) < rf →
    let s' := b_put B s (lloc H k e) (Node rf (VLeaf k (dloc H k e))) in
    let m' := <[lloc H k e := Node rf (VLeaf k (dloc H k e))]> m in
    ev (m, P, ts) (m', lloc H k e :: P, ts) ∧ G s' (m', lloc H k e :: P, ts) ∧ J s'.
  Proof.
    intros HG Ht Hpre Hnew Hdup Hin Hfl. cbv zeta.
    destruct (G_stored s _ _ HG Ht) as [_ Hst].
    destruct (G_put H S fl pr Hkp B m0 s m P ts (OT (TLeaf k e)) (Node rf (VLeaf k (dloc H k e))) HG) as [HG' Hc];
      try done.
    { by apply (ostored_iff H m (OT (TLeaf k e))). }
    { simpl. lia. }
    split_and!; [|done|by eapply G_J].
    by apply ev_again.
  Qed.

  Lemma insert_leaf_wp s m P ts t Q E : G s (m, P, ts) → stored H m0 t →
    (∀ rf, (troot H t ∉ P → rf = nrefs m (troot H t)) → fl (troot H t) ≤ rf →
       let s' := b_put B s (troot H t) (Node (rf + 1) (tvar H t)) in J s' ∧ Q tt s') →
    wp (insert_leaf (troot H t)) Q E s.
  Proof.
    intros HG Ht HQ. destruct (G_read s m P ts t HG Ht) as (rf & Hrf & Hr & Hf).
    unfold insert_leaf. cbn [get_node mbind prog_bind pbind Logic.wp]. rewrite Hrf. cbn. by apply HQ.
  Qed.

  Lemma split_nodes_wp d t ks s m P ts E : G s (m, P, ts) → stored H m0 t → tpwf t →
    Forall S (tpre H t) → ksorted ks → (ks = [] → piece t) →
    (∀ k e, subtrie (TLeaf k e) t → dup k e) →
    wp (split_nodes d (troot H t) ks)
      (λ r s', match ks with
               | [] => r = inl (ref_of H t) ∧
                   ∃ m', ev (m, P, ts) (m', troot H t :: P, t :: ts) ∧ G s' (m', troot H t :: P, t :: ts)
               | _ => s' = s ∧ ∃ c, r = inr c ∧ cellok m P c t ∧ ckeys c = ks ∧ cdepth c = d + 1
               end) E s.
  Proof.
    intros HG Ht Hw Hpre Hs Hpc Hdup. destruct (G_read s m P ts t HG Ht) as (rf & Hrf & Hr & Hf).
    unfold split_nodes. cbn [get_node mbind prog_bind pbind Logic.wp]. rewrite Hrf.
    destruct ks as [|k0 ks].
    - destruct (piece_step s m P ts t rf) as (Hev & HG' & HJ'); auto.
      cbn [var refs]. destruct t as [k e|l r]; cbn; (split; [done|]; split; [done|eauto]).
    - cbn. split; [done|]. eexists. split_and!; [done| |done|done].
      unfold cellok. simpl. split_and!; done.
  Qed.

  (** The key map of the call. *)
  Definition kmok (km : gmap (arr n) (arr n)) P : Prop :=
    ∀ k lc, km !! k = Some lc →
      ∃ e, isnew k e ∧ lc = lloc H k e ∧ lc ∈ P ∧ Forall S (tpre H (TLeaf k e)).
  Definition kdel (km : gmap (arr n) (arr n)) k : bool :=
    match km !! k with Some _ => true | None => false end.
  Definition pieces (km : gmap (arr n) (arr n)) (q : list cell) (tq : list (trie n)) : list (trie n) :=
    mjoin (zip_with (λ c t, wdec (kdel km) t (ckeys c)) q tq).
  Definition measure (q : list (cell (n := n))) : nat :=
    sum_list_with (λ c, length (ckeys c) * (max_depth + 2 - cdepth c)) q.

  Lemma kmok_mono km P P' : (∀ lc, lc ∈ P → lc ∈ P') → kmok km P → kmok km P'.
  Proof.
    intros Hsub Hk k lc Hlc. destruct (Hk k lc Hlc) as (e & ? & ? & ? & ?). exists e. naive_solver.
  Qed.

  Lemma traverse_wp km fuel acc q tq s m P ts :
    G s (m, P, ts) → Forall2 (cellok m P) q tq → kmok km P →
    measure q ≤ fuel → (∀ c, c ∈ q → cdepth c ≤ max_depth + 1) →
    (∀ p, p ∈ pieces km q tq → piece p) →
    wp (traverse_tree max_depth fuel km acc q)
      (λ acc' s', ∃ ps m' P' ts', acc' = acc ++ (ref_of H <$> ps) ∧ ps ≡ₚ pieces km q tq ∧
         ts' ≡ₚ ps ++ ts ∧ rtc ev (m, P, ts) (m', P', ts') ∧ G s' (m', P', ts') ∧
         (∀ c t, (c, t) ∈ zip q tq → cdepth c + wdep t (ckeys c) ≤ max_depth))
      (λ er s', J s' ∧ er = "Depth of merkle tree exceeded" ∧
         ∃ c t, (c, t) ∈ zip q tq ∧ max_depth < cdepth c + wdep t (ckeys c)) s.
  Proof.
    revert acc q tq s m P ts. induction fuel as [fuel IH] using lt_wf_ind.
    intros acc q tq s m P ts HG Hq Hkm Hfuel Hdep Hpc.
    destruct Hq as [|c t q tq Hc Hq].
    { destruct fuel; cbn; exists [], m, P, ts; rewrite app_nil_r;
        (split_and!; [done|done|done|apply rtc_refl|done|by intros c t ?%elem_of_nil]). }
    pose proof Hc as (Hcl & Hcv & Hst & Hw & Hpre & Hks & Hne & Hrf & Hcf & Hcd').
    assert (1 ≤ length (ckeys c)) as Hlen by (destruct (ckeys c); [done|simpl; lia]).
    pose proof (Hdep c ltac:(by left)) as Hdc.
    change (measure (c :: q)) with (length (ckeys c) * (max_depth + 2 - cdepth c) + measure q) in Hfuel.
    assert (length (ckeys c) + measure q ≤ fuel) as Hf1.
    { assert (1 ≤ max_depth + 2 - cdepth c) by lia. nia. }
    destruct fuel as [|fuel]; [lia|]. cbn [traverse_tree].
    destruct (Nat.ltb_spec max_depth (cdepth c)) as [Hgt|Hle].
    { cbn. split_and!; [by eapply G_J|done|]. exists c, t. split; [by left|lia]. }
    rewrite Hcv.
    assert (∀ (fuel' : nat) acc' q' tq' s' m' P' ts' (old : list (trie n)),
      fuel' < Datatypes.S fuel → G s' (m', P', ts') → Forall2 (cellok m' P') q' tq' →
      rtc ev (m, P, ts) (m', P', ts') → measure q' ≤ fuel' →
      (∀ c', c' ∈ q' → cdepth c' ≤ max_depth + 1) →
      acc' = acc ++ (ref_of H <$> old) → ts' ≡ₚ old ++ ts →
      pieces km (c :: q) (t :: tq) ≡ₚ old ++ pieces km q' tq' →
      ((∀ c t, (c, t) ∈ zip q' tq' → cdepth c + wdep t (ckeys c) ≤ max_depth) ↔
       (∀ c' t', (c', t') ∈ (c, t) :: zip q tq → cdepth c' + wdep t' (ckeys c') ≤ max_depth)) →
      wp (traverse_tree max_depth fuel' km acc' q')
        (λ acc' s', ∃ ps m' P' ts', acc' = acc ++ (ref_of H <$> ps) ∧ ps ≡ₚ pieces km (c :: q) (t :: tq) ∧
           ts' ≡ₚ ps ++ ts ∧ rtc ev (m, P, ts) (m', P', ts') ∧ G s' (m', P', ts') ∧
           (∀ c' t', (c', t') ∈ (c, t) :: zip q tq → cdepth c' + wdep t' (ckeys c') ≤ max_depth))
        (λ er s', J s' ∧ er = "Depth of merkle tree exceeded" ∧
           ∃ c' t', (c', t') ∈ (c, t) :: zip q tq ∧ max_depth < cdepth c' + wdep t' (ckeys c')) s') as Hgo.
    { intros fuel' acc' q' tq' s' m' P' ts' old Hlt HG' Hq' Hev Hm' Hd' -> Hts' Hps Hiff.
      eapply wp_mono; [| |apply (IH fuel' Hlt _ q' tq' s' m' P' ts')]; try done.
      - intros acc'' s'' (ps & m'' & P'' & ts'' & -> & Hps' & Hts'' & Hev' & HG'' & Hdd).
        exists (old ++ ps), m'', P'', ts''. split_and!; try done.
        + by rewrite fmap_app, app_assoc.
        + by rewrite Hps, Hps'.
        + rewrite Hts'', Hts'. rewrite !(assoc_L (++)). by rewrite (Permutation_app_comm ps old).
        + by etrans.
        + by apply Hiff.
      - intros er s'' (HJ & -> & c' & t' & Hin & Hbad). split_and!; try done.
        destruct (decide (Exists (λ p, max_depth < cdepth p.1 + wdep p.2 (ckeys p.1)) ((c, t) :: zip q tq)))
          as [Hex|Hnex].
        + apply Exists_exists in Hex as ([c1 t1] & Hi & Hb). by exists c1, t1.
        + exfalso. apply Forall_Exists_neg in Hnex.
          assert (cdepth c' + wdep t' (ckeys c') ≤ max_depth); [|lia].
          apply Hiff; [|done]. intros c1 t1 Hi. rewrite Forall_forall in Hnex.
          specialize (Hnex _ Hi). simpl in Hnex. lia.
      - apply evs_frame in Hev as [Hsub _]. simpl in Hsub. by eapply kmok_mono.
      - intros p Hp. apply Hpc. rewrite Hps. apply elem_of_app. by right. }
    assert (∀ p, p ∈ wdec (kdel km) t (ckeys c) → piece p) as Hpt.
    { intros p Hp. apply Hpc. unfold pieces. cbn. apply elem_of_app. by left. }
    assert (pieces km (c :: q) (t :: tq) = wdec (kdel km) t (ckeys c) ++ pieces km q tq) as Hpcs by done.
    assert (∀ c', c' ∈ q → cdepth c' ≤ max_depth + 1) as Hdq by (intros c' ?; apply Hdep; by right).
    destruct t as [lk le|l r]; cbn [tvar].
    - (* leaf *)
      cbn [wdec wdep] in *. unfold kdel in Hpcs, Hpt.
      assert ((∀ c t, (c, t) ∈ zip q tq → cdepth c + wdep t (ckeys c) ≤ max_depth) ↔
       (∀ c' t', (c', t') ∈ (c, TLeaf lk le) :: zip q tq → cdepth c' + wdep t' (ckeys c') ≤ max_depth)) as Hiff.
      { split; [|intros Hx c' t' ?; apply Hx; by right].
        intros Hx c' t' [[= -> ->]|?]%elem_of_cons; [simpl; lia|by apply Hx]. }
      destruct (km !! lk) as [lc|] eqn:Hlk; rewrite ?Hlk in Hpcs, Hpt.
      + destruct (Hkm lk lc Hlk) as (e' & Hnew & -> & HinP & Hpre').
        destruct (decide (lloc H lk e' = cloc c)) as [Heq|Hneq].
        * rewrite Hcl in Heq. change (lloc H lk e') with (troot H (TLeaf lk e')) in Heq.
          apply (troot_inj H S Hinj) in Heq; [|done|done]. injection Heq as ->.
          rewrite Hcl. apply wp_bind. eapply insert_leaf_wp; [exact HG|exact Hst|].
          intros rf _ Hrf'. cbv zeta. cbn [troot] in Hrf'.
          destruct (again_step s m P ts lk le (rf + 1) HG Hst Hpre Hnew (Hcd' _ _ (sub_refl _)) HinP ltac:(lia)) as (Hev & HG' & HJ').
          split; [done|]. eapply (Hgo fuel acc q tq _ _ _ ts []); try done.
          -- lia.
          -- eapply cells_evs; [|done]. by apply rtc_once.
          -- by apply rtc_once.
          -- lia.
          -- by rewrite app_nil_r.
          -- by rewrite Hpcs.
        * eapply (Hgo fuel acc q tq s m P ts []); try done;
            [lia|lia|by rewrite app_nil_r|by rewrite Hpcs].
      + rewrite Hcl. apply wp_bind. eapply insert_leaf_wp; [exact HG|exact Hst|].
        intros rf Hrf' Hcf'. cbv zeta.
        destruct (piece_step s m P ts (TLeaf lk le) rf) as (Hev & HG' & HJ'); auto.
        { apply Hpt. by left. }
        split; [done|]. eapply (Hgo fuel _ q tq _ _ _ _ [TLeaf lk le]); try done.
        * lia.
        * eapply cells_evs; [|done]. by apply rtc_once.
        * by apply rtc_once.
        * lia.
        * by rewrite Hpcs.
    - (* branch *)
      destruct Hw as (Hwl & Hwr & Hltlr). pose proof (tsplit_lt l r Hltlr) as Hs8.
      destruct Hst as (Hstn & Hstl & Hstr).
      pose proof Hpre as Hpre0. cbn [tpre] in Hpre0. apply Forall_cons in Hpre0 as [Hpreb Hprelr].
      apply Forall_app in Hprelr as [Hprel Hprer].
      destruct (node_desc_spec (ckeys c) (tsplit l r) (tmin l) Hn Hks Hne Hs8)
        as (mi & Hmi & Hcd & Hge & _).
      rewrite Hmi. cbn [lift mbind prog_bind pbind].
      set (D := node_desc (ckeys c) (tsplit l r) (tmin l)) in *.
      assert ((if mi <? tsplit l r then lift (check_descendants (ckeys c) (tsplit l r) (tmin l) mi)
               else mret (ckeys c)) = (mret D : prog n _)) as Hdd.
      { destruct (Nat.ltb_spec mi (tsplit l r)); [by rewrite Hcd|]. by rewrite Hge. }
      rewrite Hdd. cbn [mret prog_ret mbind prog_bind pbind].
      assert ((mi <? tsplit l r) && (length D =? 0) = bool_decide (D = [])) as ->.
      { destruct (Nat.ltb_spec mi (tsplit l r)); simpl.
        - destruct D; simpl; by rewrite ?bool_decide_true, ?bool_decide_false.
        - rewrite bool_decide_false; [done|]. rewrite Hge by done. done. }
      cbn [wdec wdep] in *. fold D in Hpcs, Hpt.
      case_bool_decide as HD.
      + (* the whole branch is kept *)
        rewrite HD in Hpcs, Hpt.
        destruct (piece_step s m P ts (TNode l r) (refs (cnode c))) as (Hev & HG' & HJ'); auto.
        { by simpl. }
        { by simpl. }
        { apply Hpt. by left. }
        { by rewrite <- Hcl. }
        { by rewrite <- Hcl. }
        rewrite Hcl. cbn [db_insert mbind prog_bind pbind Logic.wp]. split; [done|].
        eapply (Hgo fuel _ q tq _ _ _ _ [TNode l r]); try done.
        * lia.
        * eapply cells_evs; [|done]. by apply rtc_once.
        * by apply rtc_once.
        * lia.
        * by rewrite Hpcs.
        * cbn [zip zip_with]. split; [|intros Hx c' t' ?; apply Hx; by right].
          intros Hx c' t' [[= -> ->]|?]%elem_of_cons; [|by apply Hx].
          cbn [wdep]. fold D. rewrite HD. lia.
      + destruct (node_split_app D (tsplit l r) Hs8) as [Hsp Happ].
        rewrite Hsp. cbn [lift mbind prog_bind pbind].
        destruct (node_split D (tsplit l r)) as [zs os] eqn:Hzo. cbn [fst snd] in *.
        assert (ksorted D) as HsD by (apply node_desc_sorted; done).
        assert (length D ≤ length (ckeys c)) as HlD by (apply node_desc_length; done).
        rewrite <- Happ in HsD. apply StronglySorted_app_inv in HsD as (Hsz & Hso & _).
        assert (length zs + length os ≤ length (ckeys c)) as Hlzo.
        { rewrite <- app_length, Happ. done. }
        assert (wdec (kdel km) (TNode l r) (ckeys c) =
          match zs with [] => [l] | _ => wdec (kdel km) l zs end ++
          match os with [] => [r] | _ => wdec (kdel km) r os end) as Hwd.
        { cbn [wdec]. fold D. destruct D as [|d D']; [done|]. rewrite Hzo. cbn [fst snd].
          by destruct zs, os. }
        assert (wdep (TNode l r) (ckeys c) =
          max match zs with [] => 0 | _ => Datatypes.S (wdep l zs) end
              match os with [] => 0 | _ => Datatypes.S (wdep r os) end) as Hwp.
        { cbn [wdep]. fold D. destruct D as [|d D']; [done|]. rewrite Hzo. cbn [fst snd].
          by destruct zs, os. }
        change (match D with [] => _ | _ => _ end) with (wdec (kdel km) (TNode l r) (ckeys c)) in Hpt, Hpcs.
        rewrite Hwd in Hpt, Hpcs.
        apply wp_bind. eapply wp_mono; [| |eapply (split_nodes_wp (cdepth c) r os); try done].
        2:{ intros er s' Hf. exact Hf. }
        2:{ intros ->. apply Hpt. apply elem_of_app. right. by left. }
        2:{ intros k0 e0 Hk0. apply Hcd'. by apply sub_r. }
        intros r1 s1 Hr1.
        (* state after the one side *)
        assert (∃ m1 P1 ts1 old1 q1 tq1, G s1 (m1, P1, ts1) ∧ rtc ev (m, P, ts) (m1, P1, ts1) ∧
          push_split r1 acc q = (acc ++ (ref_of H <$> old1), q1) ∧ ts1 ≡ₚ old1 ++ ts ∧
          Forall2 (cellok m1 P1) q1 tq1 ∧
          old1 ++ pieces km q1 tq1 ≡ₚ match os with [] => [r] | _ => wdec (kdel km) r os end ++ pieces km q tq ∧
          measure q1 = length os * (max_depth + 1 - cdepth c) + measure q ∧
          (∀ c', c' ∈ q1 → cdepth c' ≤ max_depth + 1) ∧
          ((∀ c t, (c, t) ∈ zip q1 tq1 → cdepth c + wdep t (ckeys c) ≤ max_depth) ↔
           cdepth c + match os with [] => 0 | _ => Datatypes.S (wdep r os) end ≤ max_depth ∧
           (∀ c t, (c, t) ∈ zip q tq → cdepth c + wdep t (ckeys c) ≤ max_depth)))
          as (m1 & P1 & ts1 & old1 & q1 & tq1 & HG1 & Hev1 & Hps1 & Hts1 & Hq1 & Hpc1 & Hm1 & Hd1 & Hz1).
        { destruct os as [|o os].
          - destruct Hr1 as [-> (m1 & Hev1 & HG1)].
            exists m1, (troot H r :: P), (r :: ts), [r], q, tq.
            split_and!; try done.
            + by apply rtc_once.
            + eapply cells_evs; [by apply rtc_once|done].
            + split; [intros; split; [lia|done]|by intros [_ ?]].
          - destruct Hr1 as [-> (c1 & -> & Hc1 & Hk1 & Hdc1)].
            exists m, P, ts, [], (c1 :: q), (r :: tq). split_and!; try done.
            + cbn. by rewrite app_nil_r.
            + by constructor.
            + unfold pieces. cbn [zip_with]. rewrite Hk1. done.
            + cbn [measure sum_list_with]. rewrite Hk1, Hdc1. unfold measure.
              replace (max_depth + 2 - (cdepth c + 1)) with (max_depth + 1 - cdepth c) by lia. done.
            + intros c' [->|Hc']%elem_of_cons; [lia|auto].
            + cbn [zip zip_with]. split.
              * intros Hx. split.
                -- specialize (Hx c1 r ltac:(by left)). rewrite Hk1, Hdc1 in Hx. lia.
                -- intros c' t' Hin. apply Hx. by right.
              * intros [Hx Hy] c' t' [[= -> ->]|Hin]%elem_of_cons; [|by apply Hy].
                rewrite Hk1, Hdc1. lia. }
        rewrite Hps1.
        apply wp_bind. eapply wp_mono; [| |eapply (split_nodes_wp (cdepth c) l zs); try done].
        2:{ intros er s' Hf. exact Hf. }
        2:{ intros ->. apply Hpt. apply elem_of_app. left. by left. }
        2:{ intros k0 e0 Hk0. apply Hcd'. by apply sub_l. }
        intros r0 s2 Hr0.
        destruct zs as [|z zs].
        * destruct Hr0 as [-> (m2 & Hev2 & HG2)]. cbn [push_split].
          eapply (Hgo fuel _ q1 tq1 s2 m2 _ _ (old1 ++ [l])); try done.
          -- lia.
          -- eapply cells_evs; [by apply rtc_once|done].
          -- eapply rtc_r; done.
          -- rewrite Hm1. cbn [length] in Hlzo. nia.
          -- by rewrite fmap_app, app_assoc.
          -- rewrite Hts1. rewrite <- app_assoc. cbn. by rewrite Permutation_middle.
          -- rewrite Hpcs. rewrite <- !app_assoc. cbn [app]. rewrite <- Hpc1.
             by rewrite Permutation_middle.
          -- rewrite Hz1. split.
             ++ intros [Hx Hy] c' t' [[= -> ->]|Hin]%elem_of_cons; [|by apply Hy]. rewrite Hwp. lia.
             ++ intros Hx. specialize (Hx c (TNode l r) ltac:(by left)) as Hx0. rewrite Hwp in Hx0.
                split; [lia|]. intros c' t' Hin. apply Hx. by right.
        * destruct Hr0 as [-> (c0 & -> & Hc0 & Hk0 & Hdc0)]. cbn [push_split].
          eapply (Hgo fuel _ (c0 :: q1) (l :: tq1) s1 m1 P1 ts1 old1); try done.
          -- lia.
          -- by constructor.
          -- change (measure (c0 :: q1)) with (length (ckeys c0) * (max_depth + 2 - cdepth c0) + measure q1).
             rewrite Hk0, Hdc0, Hm1.
             replace (max_depth + 2 - (cdepth c + 1)) with (max_depth + 1 - cdepth c) by lia.
             assert (length (z :: zs) * (max_depth + 1 - cdepth c) + length os * (max_depth + 1 - cdepth c)
               ≤ length (ckeys c) * (max_depth + 1 - cdepth c)) by nia.
             replace (max_depth + 2 - cdepth c) with (Datatypes.S (max_depth + 1 - cdepth c)) in Hfuel by lia.
             nia.
          -- intros c' [->|Hc']%elem_of_cons; [lia|auto].
          -- rewrite Hpcs. unfold pieces. cbn [zip_with]. rewrite Hk0. cbn [mjoin list_join].
             fold (pieces km q1 tq1). rewrite (assoc_L (++)), (Permutation_app_comm old1), <- !(assoc_L (++)).
             by rewrite <- Hpc1.
          -- cbn [zip zip_with]. split.
             ++ intros Hx c' t' Hin.
                assert (∀ c t, (c, t) ∈ zip q1 tq1 → cdepth c + wdep t (ckeys c) ≤ max_depth) as Hx1.
                { intros. apply Hx. by right. }
                apply Hz1 in Hx1 as [Hx1 Hx2].
                specialize (Hx c0 l ltac:(by left)). rewrite Hk0, Hdc0 in Hx.
                apply elem_of_cons in Hin as [[= -> ->]|Hin]; [|by apply Hx2]. rewrite Hwp. lia.
             ++ intros Hx. specialize (Hx c (TNode l r) ltac:(by left)) as Hx0. rewrite Hwp in Hx0.
                intros c' t' [[= -> ->]|Hin]%elem_of_cons.
                ** rewrite Hk0, Hdc0. lia.
                ** revert c' t' Hin. apply Hz1. split; [lia|]. intros c' t' Hin. apply Hx. by right.
  Qed.
End Insert.

Section InsertTop.
  Context {n : nat} (Hn : 0 < n) (H : list bytes → arr n).
  Context (S : list bytes → Prop) (Hinj : inj_on H S).
  Context (fl : arr n → nat) (pr : db n → Prop) (Hkp : keeps H S fl pr).
  Context (B : backend n) {HB : BackendOk B}.
  Context {V : Type} (encode : V → res bytes) (Henc : ∀ v, encode v ≠ Pan) (max_depth : nat).
  Implicit Types (t : trie n) (m : db n) (P : list (arr n)) (ts : list (trie n)) (k : arr n) (e : bytes).
  Implicit Types (vm : gmap (arr n) V) (ks : list (arr n)) (old : option (trie n)).

  Definition isnew ks vm k e : Prop := k ∈ ks ∧ ∃ v, vm !! k = Some v ∧ encode v = Ok e.
  Definition in_old old k e : Prop := match old with Some t => subtrie (TLeaf k e) t | None => False end.
  Definition olddec old ks : list (trie n) :=
    match old with Some t => wdec (λ k, bool_decide (k ∈ ks)) t ks | None => [] end.
  Definition olddep old ks : nat := match old with Some t => wdep t ks | None => 0 end.
  Definition oldok m old : Prop :=
    match old with Some t => stored H m t ∧ tpwf t ∧ Forall S (tpre H t) | None => True end.
  Notation evi ks vm old := (ev H S fl (isnew ks vm) (λ p, p ∈ olddec old ks) (in_old old)).

  Lemma wdec_ext del1 del2 t ks : (∀ k, del1 k = del2 k) → wdec del1 t ks = wdec del2 t ks.
  Proof.
    intros He. revert ks. induction t as [k e|l IHl r IHr]; intros ks; simpl; [by rewrite He|].
    destruct (node_desc _ _ _) as [|d D]; [done|].
    destruct (node_split _ _) as [[|z zs] [|o os]]; cbn [fst snd]; by rewrite ?IHl, ?IHr.
  Qed.

  Lemma foldl_insert_lookup {A} (ps : list (arr n * A)) (acc : gmap (arr n) A) k :
    (foldl (λ (mm : gmap (arr n) A) p, <[p.1 := p.2]> mm) acc ps) !! k =
      match last (filter (λ p, p.1 = k) ps) with Some p => Some p.2 | None => acc !! k end.
  Proof.
    revert acc. induction ps as [|[k' a] ps IH]; intros acc; [done|]. cbn [foldl fst snd].
    rewrite IH, filter_cons. simpl.
    destruct (decide (k' = k)) as [->|Hne].
    - rewrite lookup_insert. destruct (filter _ ps) as [|p ps'] eqn:Hf; [done|]. 
      rewrite last_cons_cons. destruct (last (p :: ps')) eqn:Hl; [done|]. by apply last_None in Hl.
    - by rewrite lookup_insert_ne.
  Qed.
  Lemma key_map_lookup ks es (f : arr n → bytes → arr n) (g : arr n → option bytes) k :
    Forall2 (λ k e, g k = Some e) ks es →
    key_map_of ks (zip_with f ks es) !! k = if decide (k ∈ ks) then f k <$> g k else None.
  Proof.
    intros Hf. unfold key_map_of.
    assert (∀ ps, ps = zip ks (zip_with f ks es) →
      last (filter (λ p, p.1 = k) ps) = if decide (k ∈ ks) then (λ e, (k, f k e)) <$> g k else None) as Hl.
    { intros ps ->. induction Hf as [|k' e' ks es Hk Hf IH]; [done|]. cbn [zip zip_with].
      rewrite filter_cons. cbn [fst]. destruct (decide (k' = k)) as [->|Hne].
      - rewrite decide_True by (by left). rewrite Hk. cbn [fmap option_fmap option_map].
        destruct (filter _ _) as [|p ps] eqn:Hfl; [done|]. rewrite last_cons_cons.
        rewrite IH. destruct (decide (k ∈ ks)) as [Hin|Hni]; [by rewrite Hk|]. exfalso.
        by apply last_None in IH.
      - rewrite IH. destruct (decide (k ∈ ks)) as [Hin|Hni].
        + rewrite decide_True; [done|]. by right.
        + rewrite decide_False; [done|]. intros [->|]%elem_of_cons; done. }
    rewrite (foldl_insert_lookup (zip ks (zip_with f ks es)) ∅ k), (Hl _ eq_refl).
    destruct (decide _); [|done]. by destruct (g k).
  Qed.

  Definition encg vm k : option bytes :=
    match vm !! k with Some v => match encode v with Ok e => Some e | _ => None end | None => None end.
  Lemma encg_Some vm k e : encg vm k = Some e ↔ ∃ v, vm !! k = Some v ∧ encode v = Ok e.
  Proof.
    unfold encg. split.
    - destruct (vm !! k) as [v|]; [|done]. destruct (encode v) eqn:He; intros [= ->]. eauto.
    - by intros (v & -> & ->).
  Qed.

  Definition new_tries ks es : list (trie n) := zip_with TLeaf ks es.
  Lemma new_refs ks es : zip_with (λ l k, TRef k l 1 1) (zip_with (lloc H) ks es) ks =
    ref_of H <$> new_tries ks es.
  Proof.
    revert es. induction ks as [|k ks IH]; intros [|e es]; [done|done|done|].
    cbn. by rewrite IH.
  Qed.
  Lemma elem_of_new_tries ks es t : length ks = length es →
    t ∈ new_tries ks es → ∃ k e, t = TLeaf k e ∧ (k, e) ∈ zip ks es.
  Proof.
    revert es. induction ks as [|k ks IH]; intros [|e es]; try done; cbn [new_tries zip_with zip].
    - by intros _ ?%elem_of_nil.
    - intros [= Hlen] [->|Ht]%elem_of_cons; [exists k, e; split; [done|by left]|].
      destruct (IH es Hlen Ht) as (k' & e' & -> & ?). exists k', e'. split; [done|by right].
  Qed.

  Theorem insert_sorted_wp_i ks vm old s :
    Jp pr B (b_vis B s) s → oldok (b_vis B s) old → ksorted ks → ks ≠ [] →
    (∀ k, k ∈ ks → is_Some (vm !! k)) →
    (∀ es ts, Forall2 (λ k e, encg vm k = Some e) ks es → ts ≡ₚ new_tries ks es ++ olddec old ks →
       StronglySorted klt (tmin <$> ts) →
       may_merge H S fl (isnew ks vm) (λ p, p ∈ olddec old ks) (in_old old)
         (bview s, bpend s, []) ts) →
    wp B H S (Jp pr B (b_vis B s)) (insert_sorted encode max_depth (troot H <$> old) ks vm)
      (λ lc s', ∃ es m' P' t ts, lc = troot H t ∧ Forall2 (λ k e, encg vm k = Some e) ks es ∧
         Forall2 (λ k e, Forall S (tpre H (TLeaf k e))) ks es ∧
         rtc (evi ks vm old) (bview s, bpend s, []) (m', P', [t]) ∧
         G H S pr B (b_vis B s) s' (m', P', [t]) ∧ b_vis B s' = bview s' ∧ bpend s' = [] ∧
         ts ≡ₚ new_tries ks es ++ olddec old ks ∧ StronglySorted klt (tmin <$> ts) ∧
         tleaves t = mjoin (tleaves <$> ts) ∧ merged ts t ∧ olddep old ks ≤ max_depth)
      (λ er s', Jp pr B (b_vis B s) s' ∧
         ((∃ k v, k ∈ ks ∧ vm !! k = Some v ∧ encode v = Err er) ∨
          (er = "Depth of merkle tree exceeded" ∧ max_depth < olddep old ks) ∨
          (er = "Attempted to insert item with duplicate keys" ∧
           ¬ NoDup (ks ++ (tmin <$> olddec old ks)) ∧ olddep old ks ≤ max_depth))) s.
  Proof.
    intros HJ Hold Hso Hne Hvm Hmay. set (m0 := b_vis B s) in *.
    assert (G H S pr B m0 s (bview s, bpend s, [])) as HG.
    { split_and!; simpl; auto. }
    unfold insert_sorted. apply wp_bind.
    eapply wp_mono; [| |apply (insert_leaves_wp Hn H S Hinj fl pr Hkp B m0 encode Henc (isnew ks vm)
      (λ p, p ∈ olddec old ks) (in_old old) vm ks s _ _ _ HG)].
    3:{ done. }
    3:{ intros k v e Hk Hv He. split; [done|]. eauto. }
    2:{ intros er s' [HJ' Her]. split; [done|]. by left. }
    intros ls s1 (es & m1 & P1 & ts1 & Hes & -> & Hts1 & Hev1 & HG1).
    assert (length ks = length es) as Hlen by (by eapply Forall2_length).
    assert (Forall2 (λ k e, encg vm k = Some e) ks es) as Hes1.
    { eapply Forall2_impl; [exact Hes|]. intros k e (Hv & _). by apply encg_Some. }
    assert (Forall2 (λ k e, Forall S (tpre H (TLeaf k e))) ks es) as Hes2.
    { eapply Forall2_impl; [exact Hes|]. intros k e (_ & ? & ? & _). by repeat constructor. }
    rewrite app_nil_r in Hts1. fold (new_tries ks es) in Hts1.
    rewrite new_refs.
    set (km := key_map_of ks (zip_with (lloc H) ks es)).
    assert (∀ k, kdel km k = bool_decide (k ∈ ks)) as Hkd.
    { intros k. unfold kdel, km. rewrite (key_map_lookup ks es (lloc H) (encg vm) k Hes1).
      destruct (decide (k ∈ ks)) as [Hin|Hni].
      - rewrite bool_decide_true by done. apply elem_of_list_lookup_1 in Hin as [i Hi].
        destruct (Forall2_lookup_l _ _ _ _ _ Hes1 Hi) as (e & _ & ->). done.
      - by rewrite bool_decide_false. }
    apply wp_bind.
    eapply (wp_mono B H S _ _ (λ rs s2, ∃ ps m2 P2 ts2, rs = ref_of H <$> ps ∧ ps ≡ₚ olddec old ks ∧
        ts2 ≡ₚ ps ++ ts1 ∧ rtc (evi ks vm old) (m1, P1, ts1) (m2, P2, ts2) ∧
        G H S pr B m0 s2 (m2, P2, ts2) ∧ olddep old ks ≤ max_depth)
      _ (λ er s2, Jp pr B m0 s2 ∧ er = "Depth of merkle tree exceeded" ∧ max_depth < olddep old ks)).
    - intros rs s2 (ps & m2 & P2 & ts2 & -> & Hps & Hts2 & Hev2 & HG2 & Hdep).
      rewrite <- fmap_app.
      assert (ts2 ≡ₚ new_tries ks es ++ ps) as Hperm.
      { rewrite Hts2, Hts1. apply Permutation_app_comm. }
      assert (new_tries ks es ++ ps ≠ []) as Hnn.
      { destruct ks, es; done. }
      eapply wp_mono; [| |apply (create_tree_wp_i Hn H S fl (isnew ks vm) (λ p, p ∈ olddec old ks)
          (in_old old) pr Hkp B m0 (new_tries ks es ++ ps) s2 m2 P2); [|done|]].
      + intros lc s3 (m3 & P3 & t & ts3 & -> & Hev3 & HG3 & Hts3 & Hsort & Hlv & Hgd & Hvis & Hpend).
        exists es, m3, P3, t, ts3. split_and!; try done.
        * etrans; [exact Hev1|]. etrans; [exact Hev2|].
          eapply (evs_perm _ _ _ _ _ _ (m2, P2, new_tries ks es ++ ps) (m3, P3, [t])); done.
        * rewrite Hts3. by rewrite Hps.
      + intros er s3 (HJ3 & -> & Hnd & _). split; [done|]. right. right. split; [done|]. split; [|done].
        intros Hnd'. apply Hnd. rewrite Hps. rewrite fmap_app.
        assert (tmin <$> new_tries ks es = ks) as ->; [|done].
        clear -Hlen. revert es Hlen. induction ks as [|k ks IH]; intros [|e es] Hl; try done.
        cbn. f_equal. apply IH. by injection Hl.
      + by eapply G_perm.
      + intros ts0 Hts0 Hsort x bs1 l r bs2 Hx Hx2.
        destruct (evs_perm_ex _ _ _ _ _ _ (m2, P2, new_tries ks es ++ ps) x ts2 Hx) as (ts' & Hx' & Hp');
          [by symmetry|]. cbn [fst] in Hx'.
        apply (Hmay es ts0 Hes1 ltac:(by rewrite Hts0, Hps) Hsort (x.1, ts')).
        * etrans; [exact Hev1|]. etrans; [exact Hev2|]. exact Hx'.
        * simpl. by rewrite <- Hp'.
    - intros er s2 (HJ2 & -> & Hd). split; [done|]. right. by left.
    - destruct old as [t0|].
      2:{ cbn. exists [], m1, P1, ts1. split_and!; try done. simpl. lia. }
      destruct Hold as (Hst & Hw & Hpre).
      cbn [fmap option_fmap option_map]. unfold generate_treerefs.
      destruct (G_read H S fl pr Hkp B m0 s1 m1 P1 ts1 t0 HG1 Hst) as (rf & Hrf & Hr & Hf).
      cbn [get_node mbind prog_bind pbind Logic.wp]. rewrite Hrf.
      assert (pieces km [Cell (troot H t0) ks (Node rf (tvar H t0)) 0] [t0] = olddec (Some t0) ks) as Hpc.
      { unfold pieces. cbn. rewrite app_nil_r. by apply wdec_ext. }
      eapply wp_mono; [| |apply (traverse_wp Hn H S Hinj fl pr Hkp B m0 encode Henc max_depth (isnew ks vm)
        (λ p, p ∈ olddec (Some t0) ks) (in_old (Some t0)) km _ [] _ [t0] s1 m1 P1 ts1 HG1)].
      + intros rs s2 (ps & m2 & P2 & ts2 & -> & Hps & Hts2 & Hev2 & HG2 & Hdd).
        exists ps, m2, P2, ts2. split_and!; try done.
        * by rewrite Hps, Hpc.
        * specialize (Hdd _ t0 ltac:(by left)). simpl in Hdd. done.
      + intros er s2 (HJ2 & -> & c & t & Hin & Hd). split_and!; try done.
        apply elem_of_list_singleton in Hin as [= -> ->]. done.
      + repeat constructor; done.
      + intros k lc Hlc. unfold km in Hlc.
        rewrite (key_map_lookup ks es (lloc H) (encg vm) k Hes1) in Hlc.
        destruct (decide (k ∈ ks)) as [Hin|]; [|done].
        apply elem_of_list_lookup_1 in Hin as Hin'. destruct Hin' as [i Hi].
        destruct (Forall2_lookup_l _ _ _ _ _ Hes Hi) as (e & Hei & Hv & Hd & Hl & HP).
        apply encg_Some in Hv as Hv'. rewrite Hv' in Hlc. injection Hlc as <-.
        exists e. split_and!; [by split|done|done|by repeat constructor].
      + unfold traverse_fuel, measure. cbn. lia.
      + intros c ->%elem_of_list_singleton. simpl. lia.
      + intros p. by rewrite Hpc.
  Qed.
  Theorem insert_sorted_wp_gen ks vm old s :
    Jp pr B (b_vis B s) s → oldok (b_vis B s) old → ksorted ks → ks ≠ [] →
    (∀ k, k ∈ ks → is_Some (vm !! k)) →
    (∀ es ts, Forall2 (λ k e, encg vm k = Some e) ks es → ts ≡ₚ new_tries ks es ++ olddec old ks →
       StronglySorted klt (tmin <$> ts) →
       may_merge H S fl (isnew ks vm) (λ p, p ∈ olddec old ks) (in_old old)
         (bview s, bpend s, []) ts) →
    wp B H S (Jp pr B (b_vis B s)) (insert_sorted encode max_depth (troot H <$> old) ks vm)
      (λ lc s', ∃ es m' P' t ts, lc = troot H t ∧ Forall2 (λ k e, encg vm k = Some e) ks es ∧
         Forall2 (λ k e, Forall S (tpre H (TLeaf k e))) ks es ∧
         rtc (evi ks vm old) (bview s, bpend s, []) (m', P', [t]) ∧
         G H S pr B (b_vis B s) s' (m', P', [t]) ∧ b_vis B s' = bview s' ∧ bpend s' = [] ∧
         ts ≡ₚ new_tries ks es ++ olddec old ks ∧ StronglySorted klt (tmin <$> ts) ∧
         tleaves t = mjoin (tleaves <$> ts) ∧ (bgood ts → twf t) ∧ olddep old ks ≤ max_depth)
      (λ er s', Jp pr B (b_vis B s) s' ∧
         ((∃ k v, k ∈ ks ∧ vm !! k = Some v ∧ encode v = Err er) ∨
          (er = "Depth of merkle tree exceeded" ∧ max_depth < olddep old ks) ∨
          (er = "Attempted to insert item with duplicate keys" ∧
           ¬ NoDup (ks ++ (tmin <$> olddec old ks))))) s.
  Proof.
    intros HJ Hold Hso Hne Hvm Hmay. eapply wp_mono; [| |by apply insert_sorted_wp_i].
    - intros lc s' (es & m' & P' & t & ts & ?&?&?&?&?&?&?&?&?&?&Hm&?). exists es, m', P', t, ts. split_and!; try done.
      by apply merged_good.
    - intros er s' [HJ' [?|[?|(? & ? & _)]]]; split; auto.
  Qed.
End InsertTop.

Section InsertProper.
  Context {n : nat} (Hn : 0 < n) (H : list bytes → arr n).
  Context (S : list bytes → Prop) (Hinj : inj_on H S).
  Context (B : backend n) {HB : BackendOk B}.
  Context {V : Type} (encode : V → res bytes) (Henc : ∀ v, encode v ≠ Pan) (max_depth : nat).
  Notation evi0 ks vm old m0 := (ev H S no_floor (isnew encode ks vm) (λ p, p ∈ olddec old ks) (λ k e, is_Some (m0 !! lloc H k e))).
  Notation oldok := (oldok H S).
  Notation encg := (encg encode).

  Theorem insert_sorted_wp ks vm old s :
    J H S B (b_vis B s) s → oldok (b_vis B s) old → ksorted ks → ks ≠ [] →
    (∀ k, k ∈ ks → is_Some (vm !! k)) →
    wp B H S (J H S B (b_vis B s)) (insert_sorted encode max_depth (troot H <$> old) ks vm)
      (λ lc s', ∃ es m' P' t ts, lc = troot H t ∧ Forall2 (λ k e, encg vm k = Some e) ks es ∧
         Forall2 (λ k e, Forall S (tpre H (TLeaf k e))) ks es ∧
         rtc (evi0 ks vm old (b_vis B s)) (bview s, bpend s, []) (m', P', [t]) ∧
         G H S (proper H S) B (b_vis B s) s' (m', P', [t]) ∧ b_vis B s' = bview s' ∧ bpend s' = [] ∧
         ts ≡ₚ new_tries ks es ++ olddec old ks ∧ StronglySorted klt (tmin <$> ts) ∧
         tleaves t = mjoin (tleaves <$> ts) ∧ (bgood ts → twf t) ∧ olddep old ks ≤ max_depth)
      (λ er s', J H S B (b_vis B s) s' ∧
         ((∃ k v, k ∈ ks ∧ vm !! k = Some v ∧ encode v = Err er) ∨
          (er = "Depth of merkle tree exceeded" ∧ max_depth < olddep old ks) ∨
          (er = "Attempted to insert item with duplicate keys" ∧
           ¬ NoDup (ks ++ (tmin <$> olddec old ks))))) s.
  Proof.
    intros HJ Hold Hso Hne Hvm.
    eapply wp_mono; [| |apply (insert_sorted_wp_gen Hn H S Hinj no_floor (proper H S) (proper_keeps H S Hinj) B encode Henc max_depth ks vm old s)]; try done.
    - intros lc s' (es & m' & P' & t & ts & ?&?&?&Hev&Hrest). exists es, m', P', t, ts.
      split; [done|]. split; [done|]. split; [done|]. split; [|exact Hrest].
      clear -Hev Hold. induction Hev as [|x y z Hxy _ IH]; [done|]. econstructor; [|done].
      eapply ev_dup; [|exact Hxy]. intros k e Hk. destruct old as [t0|]; [|done]. simpl in Hk.
      destruct Hold as (Hst & _).
      clear -Hk Hst. remember (TLeaf k e) as p eqn:Hp. revert Hp Hst.
      induction Hk as [p|p l r _ IH2|p l r _ IH2]; intros Hp Hst; [|apply IH2; [done|apply Hst]..].
      subst p. destruct Hst as [Ht _]. apply has_lookup in Ht as [rf Ht]. simpl in Ht. by rewrite Ht.
    - intros es ts _ _ _ x bs1 l r bs2 _ _ _ _ _ _. lia.
  Qed.
End InsertProper.
