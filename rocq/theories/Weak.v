(** * Failed and interrupted calls in histories with removals *)
From Coq Require Import Strings.Byte NArith.
From stdpp Require Import prelude countable gmap sorting strings.
From Verif Require Import Model Bits Spec Util Trie Store Logic Build Evol Route Reads Insert Update Safe Get
  Hist Claims RefCount RcInsert RcRemove Total Live Regrow.

Local Open Scope nat_scope.

(** ** Completing a merge *)
Section Extend.
  Context {n : nat}.
  Implicit Types (t l r : trie n) (ts : list (trie n)).

  Lemma max_pair ts : 2 ≤ length ts → ∃ ts1 l r ts2, ts = ts1 ++ l :: r :: ts2 ∧
    ∀ xs x y ys, ts = xs ++ x :: y :: ys → tsplit x y ≤ tsplit l r.
  Proof.
    induction ts as [|a ts IH]; [simpl; lia|]. destruct ts as [|b ts]; [simpl; lia|]. intros _.
    destruct ts as [|c ts].
    - exists [], a, b, []. split; [done|]. intros [|x0 [|x1 [|x2 xs]]] x y ys Heq; simplify_eq/=; done.
    - destruct IH as (ts1 & l & r & ts2 & Heq & Hmax); [simpl; lia|].
      destruct (decide (tsplit l r ≤ tsplit a b)) as [Hle|Hlt].
      + exists [], a, b, (c :: ts). split; [done|]. intros [|x0 xs] x y ys Hx; simplify_eq/=; [done|].
        etrans; [by eapply Hmax|done].
      + exists (a :: ts1), l, r, ts2. split; [by rewrite Heq|]. intros [|x0 xs] x y ys Hx; simplify_eq/=; [lia|].
        by eapply Hmax.
  Qed.
  Lemma bgood_extend ts : ts ≠ [] → StronglySorted klt (tmin <$> ts) → bgood ts →
    ∃ t, twf t ∧ tleaves t = mjoin (tleaves <$> ts) ∧ ∀ u, u ∈ ts → subtrie u t.
  Proof.
    remember (length ts) as N eqn:HN. revert ts HN.
    induction N as [|N IH]; intros ts HN Hne Hs Hg; [by destruct ts|].
    destruct ts as [|a [|b ts]]; [done| |].
    - exists a. split_and!; [apply Hg|cbn; by rewrite app_nil_r|].
      intros u ->%elem_of_list_singleton. constructor.
    - destruct (max_pair (a :: b :: ts)) as (ts1 & l & r & ts2 & Heq & Hmax); [simpl; lia|].
      rewrite Heq in *.
      assert (bgood (ts1 ++ TNode l r :: ts2)) as Hg'.
      { apply bgood_merge; [done| | |done].
        - intros p Hp. destruct ts1 as [|p' ts1 _] using rev_ind; [done|]. rewrite last_snoc in Hp.
          injection Hp as ->. apply (Hmax ts1 p l (r :: ts2)). by rewrite <- app_assoc.
        - intros q Hq. destruct ts2 as [|q' ts2]; [done|]. injection Hq as ->.
          apply (Hmax (ts1 ++ [l]) r q ts2). by rewrite <- app_assoc. }
      destruct (IH (ts1 ++ TNode l r :: ts2)) as (t & Ht & Hlv & Hsub); try done.
      + rewrite app_length in *. simpl in *. lia.
      + by destruct ts1.
      + clear -Hs. rewrite !fmap_app in *. cbn in *.
        apply StronglySorted_app_inv in Hs as (H1 & H2 & H12).
        apply StronglySorted_inv in H2 as [H2 F2]. apply StronglySorted_inv in H2 as [H2 F3].
        apply Forall_cons in F2 as [_ F2].
        apply StronglySorted_app_intro; [done|by constructor|].
        intros x y Hx Hy. apply H12; [done|].
        apply elem_of_cons in Hy as [->|Hy]; [left|by right; right].
      + exists t. split_and!; [done| |].
        * rewrite Hlv, !fmap_app, !mjoin_app. cbn. by rewrite <- !app_assoc.
        * intros u. rewrite elem_of_app, !elem_of_cons. intros [Hu|[->|[->|Hu]]].
          -- apply Hsub, elem_of_app. by left.
          -- eapply subtrie_trans; [|apply Hsub, elem_of_app; right; by left]. apply sub_l. constructor.
          -- eapply subtrie_trans; [|apply Hsub, elem_of_app; right; by left]. apply sub_r. constructor.
          -- apply Hsub, elem_of_app. right. by right.
  Qed.
End Extend.

(** ** A database that contains another *)
Section Dom.
  Context {n : nat} (H : list bytes → arr n).
  Context (S : list bytes → Prop) (Hinj : inj_on H S).
  Implicit Types (m D : db n) (l : arr n).

  (** [m] contains [D], with counts at least as large. *)
  Definition dom_by D m : Prop :=
    ∀ l nd, D !! l = Some nd → ∃ nd', m !! l = Some nd' ∧ var nd' = var nd ∧ refs nd ≤ refs nd'.
  Definition wpr D m : Prop := shallow H S m ∧ dom_by D m.

  Lemma dom_refl D : dom_by D D.
  Proof. intros l nd Hl. exists nd. done. Qed.
  Lemma dom_cle D m : dom_by D m → cle D m.
  Proof.
    intros Hd l v Hl. apply has_lookup in Hl as [rf Hl]. destruct (Hd _ _ Hl) as (nd' & Hm & Hv & _).
    unfold has. rewrite Hm. simpl. by rewrite Hv.
  Qed.
  Lemma dom_nrefs D m l : dom_by D m → nrefs D l ≤ nrefs m l.
  Proof.
    intros Hd. unfold nrefs at 1. destruct (D !! l) as [nd|] eqn:Hl; [|lia].
    destruct (Hd _ _ Hl) as (nd' & Hm & _ & ?). unfold nrefs. by rewrite Hm.
  Qed.
  Lemma dom_sub D D' m : dom_by D' D → dom_by D m → dom_by D' m.
  Proof.
    intros H1 H2 l nd Hl. destruct (H1 _ _ Hl) as (nd1 & Hl1 & ? & ?).
    destruct (H2 _ _ Hl1) as (nd2 & Hl2 & ? & ?). exists nd2. split_and!; [done|congruence|lia].
  Qed.

  Lemma shallow_at m o nd : shallow H S m → opre_ok H S o → m !! oloc H o = Some nd → var nd = ovar H o ∧ opwf o.
  Proof using Hinj.
    intros Hs Ho Hl. destruct (Hs _ _ Hl) as (o' & Ho' & Hw & Hloc & Hv).
    apply (oloc_inj H S Hinj) in Hloc; [|done|done]. by subst.
  Qed.
  Lemma shallow_put m o nd : shallow H S m → opre_ok H S o → opwf o → var nd = ovar H o →
    shallow H S (<[oloc H o := nd]> m).
  Proof using.
    intros Hs Ho Hw Hv l nd' [[<- <-]|[_ Hl]]%lookup_insert_Some; [|by apply Hs]. by exists o.
  Qed.
  Lemma shallow_delete m l : shallow H S m → shallow H S (delete l m).
  Proof using. intros Hs l' nd' [_ Hl]%lookup_delete_Some. by apply Hs. Qed.
  Lemma shallow_put_cle m o nd : shallow H S m → opre_ok H S o → var nd = ovar H o →
    cle m (<[oloc H o := nd]> m).
  Proof using Hinj.
    intros Hs Ho Hv l v Hl. apply has_insert. destruct (decide (oloc H o = l)) as [<-|]; [|by right].
    left. split; [done|]. apply has_lookup in Hl as [rf Hl].
    destruct (shallow_at m o _ Hs Ho Hl) as [Hv' _]. simpl in Hv'. congruence.
  Qed.
  Lemma wpr_keeps D : shallow H S D → keeps H S (nrefs D) (wpr D).
  Proof using Hinj.
    intros HD. constructor.
    - intros m o nd [Hs Hd] Ho Hw Hv _ Hfl. split; [by apply shallow_put|].
      intros l nd0 Hl. destruct (decide (oloc H o = l)) as [<-|Hne].
      + rewrite lookup_insert. exists nd. split; [done|].
        destruct (shallow_at D o _ HD Ho Hl) as [Hv' _]. split; [congruence|].
        unfold nrefs in Hfl. by rewrite Hl in Hfl.
      + rewrite lookup_insert_ne by done. by apply Hd.
    - intros m o nd [Hs _] Ho Hv. by apply shallow_put_cle.
    - intros m l [_ Hd]. by apply dom_nrefs.
  Qed.

  (** ** Dropping what no handle reaches *)
  Definition reached (hts : list (trie n)) (l : arr n) : Prop := ∃ o t, t ∈ hts ∧ osub o t ∧ oloc H o = l.
  Definition locs_of (hts : list (trie n)) : list (arr n) := oloc H <$> mjoin (tobjs <$> hts).
  Lemma elem_of_locs_of hts l : l ∈ locs_of hts ↔ reached hts l.
  Proof using.
    unfold locs_of, reached. rewrite elem_of_list_fmap. setoid_rewrite elem_of_list_join.
    setoid_rewrite elem_of_list_fmap. split.
    - intros (o & -> & x & Hx & t & -> & Ht). exists o, t. split_and!; [done|by apply elem_of_tobjs|done].
    - intros (o & t & Ht & Ho & <-). exists o. split; [done|]. exists (tobjs t).
      split; [by apply elem_of_tobjs|eauto].
  Qed.
  Definition gc (hts : list (trie n)) D : db n := filter (λ p, p.1 ∈ locs_of hts) D.
  Lemma gc_lookup hts D l nd : gc hts D !! l = Some nd ↔ D !! l = Some nd ∧ reached hts l.
  Proof using. unfold gc. rewrite map_filter_lookup_Some. simpl. by rewrite elem_of_locs_of. Qed.
  Lemma pointers_sub m m' x : m ⊆ m' → pointers m x ≤ pointers m' x.
  Proof using.
    revert m'. induction m as [|l nd m Hl IH] using map_ind; intros m' Hsub.
    - rewrite pointers_empty. lia.
    - rewrite pointers_insert by done.
      assert (m' !! l = Some nd) as Hl' by (eapply lookup_weaken; [|exact Hsub]; apply lookup_insert).
      rewrite (pointers_delete m' l nd) by done.
      assert (m ⊆ delete l m') as Hs.
      { rewrite <- (delete_insert m l nd Hl). by apply delete_mono. }
      specialize (IH _ Hs). lia.
  Qed.
  Lemma gc_ok hts D : Forall (λ t, Forall S (tpre H t)) hts → proper H S D → RC False D (troot H <$> hts) →
    RC False (gc hts D) (troot H <$> hts) ∧ proper H S (gc hts D) ∧
    (∀ l, is_Some (gc hts D !! l) → reached hts l) ∧ dom_by (gc hts D) D.
  Proof using Hinj.
    intros Hpre Hp (Hk & HX & Hc).
    assert (kids_in (gc hts D)) as Hk'.
    { intros l nd c [Hl (o & t & Ht & Ho & Hloc)]%gc_lookup Hin.
      destruct (Hk _ _ _ Hl Hin) as [nd' Hnd']. exists nd'. apply gc_lookup. split; [done|].
      rewrite Forall_forall in Hpre.
      assert (opre_ok H S o) as Hop by (eapply osub_pre; [exact Ho|by apply Hpre]).
      rewrite <- Hloc in Hl. destruct (proper_lookup H S Hinj D o nd Hp Hop Hl) as (Hv & _).
      rewrite Hv, okids_children in Hin. apply elem_of_list_fmap in Hin as (o' & -> & Hin).
      exists o', t. split_and!; [done|by eapply okids_osub|done]. }
    split_and!.
    - split_and!; [done| |].
      + intros x Hx. destruct (HX x Hx) as [nd Hnd]. exists nd. apply gc_lookup. split; [done|].
        apply elem_of_list_fmap in Hx as (t & -> & Ht). exists (OT t), t. split_and!; [done|constructor|done].
      + intros l nd [Hl _]%gc_lookup. destruct (Hc _ _ Hl) as [Hc1 _]. split; [|done].
        pose proof (pointers_sub (gc hts D) D l (map_filter_subseteq _ _)). lia.
    - apply (shallow_proper H S Hinj); [|done]. intros l nd [Hl _]%gc_lookup.
      by apply (proper_shallow H S D Hp).
    - intros l [nd [_ ?]%gc_lookup]. done.
    - intros l nd [Hl _]%gc_lookup. exists nd. done.
  Qed.
End Dom.

(** ** Insertion: the branches created are new *)
Section Made.
  Context {n : nat} (H : list bytes → arr n).
  Context (S : list bytes → Prop) (Hinj : inj_on H S) {fl : arr n → nat}.
  Context (isnew : arr n → bytes → Prop) (piece : trie n → Prop) (dup : arr n → bytes → Prop) (t : trie n).
  Context (Hjoin : ∀ l r, piece l → piece r → ¬ subtrie (TNode l r) t).
  Implicit Types (x y : ist (n := n)) (u : trie n).
  Notation ev := (ev H S fl isnew piece dup).

  Definition made x : Prop :=
    ∀ u, u ∈ x.2 → (piece u ∨ has_new isnew u) ∧ Forall S (tpre H u).
  Lemma ev_made x y : ev x y → toward t y → made x → made y.
  Proof using Hjoin.
    intros Hev [Hsub _] HI.
    inversion Hev as [m P ts k e rd rl Hnew Hd Hl Hbd Hbl|m P ts p rf Hpc Hst Hw Hpre Hb
      |m P ts k e rf Hnew Hdup|m P ts l r ts' Hperm Hlt Hb]; subst; intros u Hu; simpl in *.
    - apply elem_of_cons in Hu as [->|Hu]; [|by apply HI]. split; [|by repeat constructor].
      right. exists k, e. split; [done|constructor].
    - apply elem_of_cons in Hu as [->|Hu]; [|by apply HI]. split; [by left|done].
    - by apply HI.
    - apply elem_of_cons in Hu as [->|Hu]; [|apply HI; simpl; rewrite Hperm; by do 2 right].
      destruct (HI l) as [Hml Hpl]; [simpl; rewrite Hperm; by left|].
      destruct (HI r) as [Hmr Hpr]; [simpl; rewrite Hperm; right; by left|].
      split; [|cbn [tpre]; constructor; [done|by apply Forall_app]].
      right. destruct Hml as [Hml|(k & e & ? & ?)]; [|exists k, e; split; [done|by apply sub_l]].
      destruct Hmr as [Hmr|(k & e & ? & ?)]; [|exists k, e; split; [done|by apply sub_r]].
      exfalso. eapply Hjoin; [exact Hml|exact Hmr|]. apply Hsub. by left.
  Qed.
  Lemma evs_made x y : rtc ev x y → toward t y → made x → made y.
  Proof using Hjoin.
    induction 1 as [|x y z Hev Hevs IH]; [done|]. intros Ht HI. apply IH; [done|].
    eapply ev_made; [exact Hev| |done]. by eapply evs_toward.
  Qed.
End Made.

(** ** The same steps with the smallest counts *)
Section Replay.
  Context {n : nat} (H : list bytes → arr n).
  Context (S : list bytes → Prop) (Hinj : inj_on H S).
  Context (D : db n) (isnew : arr n → bytes → Prop) (piece : trie n → Prop) (dup : arr n → bytes → Prop).
  Context (X0 : list (arr n)) (t : trie n) (fl : arr n → nat) (Hfl : ∀ l, nrefs D l ≤ fl l).
  Context (Hbranch : ∀ l r, subtrie (TNode l r) t → has_new isnew (TNode l r) → Forall S (tpre H (TNode l r)) →
    D !! troot H (TNode l r) = None).
  Context (Hjoin : ∀ l r, piece l → piece r → ¬ subtrie (TNode l r) t).
  Context (Hp0 : proper H S D) (Hpc : ∀ u, piece u → stored H D u).
  Implicit Types (m mi : db n) (P Pi : list (arr n)) (ts : list (trie n)) (x y : ist (n := n)).
  Notation evw := (ev H S fl isnew piece dup).
  Notation evi := (ev H S no_floor isnew piece (λ _ _, False)).
  Notation rinv := (rinv H S False D isnew piece X0).

  Definition follows m x mi Pi : Prop :=
    rinv (mi, Pi, x.2) ∧ dom_by mi m ∧ (∀ l, l ∉ Pi → mi !! l = D !! l) ∧
    (∀ l, nrefs mi l ≤ nrefs D l + 1).
  Lemma dom_put mi m l nd nd' : dom_by mi m → var nd' = var nd → refs nd ≤ refs nd' →
    dom_by (<[l := nd]> mi) (<[l := nd']> m).
  Proof using.
    intros Hd Hv Hr l' nd0 [[<- <-]|[Hne Hl]]%lookup_insert_Some.
    - rewrite lookup_insert. eauto.
    - rewrite lookup_insert_ne by done. by apply Hd.
  Qed.
  Lemma bumped_least m P mi Pi l rf : dom_by mi m → (∀ l, l ∉ Pi → mi !! l = D !! l) → l ∉ Pi →
    bumped fl m P l rf → nrefs mi l + 1 ≤ rf.
  Proof using Hfl.
    intros Hd Hag Hl [_ Hb]. specialize (Hfl l). unfold nrefs in *. rewrite (Hag l Hl). lia.
  Qed.
  Lemma nrefs_put mi l rf v l' : nrefs (<[l := Node rf v]> mi) l' = if decide (l = l') then rf else nrefs mi l'.
  Proof using.
    unfold nrefs. destruct (decide (l = l')) as [->|]; [by rewrite lookup_insert|by rewrite lookup_insert_ne].
  Qed.
  Lemma ev_replay x y : evw x y → toward t y → ∀ mi Pi, follows x.1.1 x mi Pi →
    ∃ mi' Pi', follows y.1.1 y mi' Pi'.
  Proof using Hinj Hfl Hbranch Hjoin Hp0 Hpc.
    intros Hev Htw mi Pi (HI & Hd & Hag & Hle).
    assert (∀ z, evi (mi, Pi, x.2) z → z.2 = y.2 → rinv z) as Hstep.
    { intros z Hz Hz2. eapply (ev_rinv H S Hinj False D isnew piece X0 t (λ _ _, False)); try done.
      unfold toward in *. by rewrite Hz2. }
    pose proof Htw as [Hsub Hdis].
    inversion Hev as [m P ts k e rd rl Hnew HS1 HS2 Hbd Hbl|m P ts u rf Hpu Hst Hw Hpre Hb
      |m P ts k e rf Hnew Hdup Hst Hpre Hin Hb|m P ts l r ts' Hperm Hlt Hb]; subst; simpl in *.
    - assert (Forall S (tpre H (TLeaf k e))) as Hpre by (by repeat constructor).
      assert (lloc H k e ∉ Pi) as HlP.
      { apply (unwritten H S Hinj False D isnew piece X0 mi Pi ts (TLeaf k e) (OT (TLeaf k e)) HI Hdis Hpre). constructor. }
      assert (dloc H k e ∉ Pi) as HdP.
      { apply (unwritten H S Hinj False D isnew piece X0 mi Pi ts (TLeaf k e) (OD k e) HI Hdis Hpre). constructor. }
      eexists _, _. split; [|split; [|split]].
      + eapply Hstep; [|reflexivity].
        apply (ev_leaf H S no_floor isnew piece _ mi Pi ts k e (nrefs mi (dloc H k e) + 1) (nrefs mi (lloc H k e) + 1));
          try done; (split; [done|lia]).
      + apply dom_put; [apply dom_put; [done|done|]|done|]; simpl; by eapply bumped_least.
      + intros l0. rewrite !not_elem_of_cons. intros (? & ? & ?). rewrite !lookup_insert_ne by done. by apply Hag.
      + intros l0. rewrite !nrefs_put. destruct (decide _) as [<-|]; [|destruct (decide _) as [<-|]; [|done]].
        * unfold nrefs. by rewrite Hag.
        * unfold nrefs. by rewrite Hag.
    - assert (troot H u ∉ Pi) as HuP.
      { apply (unwritten H S Hinj False D isnew piece X0 mi Pi ts u (OT u) HI Hdis Hpre). constructor. }
      eexists _, _. split; [|split; [|split]].
      + eapply Hstep; [|reflexivity].
        apply (ev_piece H S no_floor isnew piece _ mi Pi ts u (nrefs mi (troot H u) + 1)); try done; [|split; [done|lia]].
        assert (∀ u', subtrie u' u → stored H mi u') as Hall; [|apply Hall; constructor].
        assert (∀ o, osub o u → oloc H o ∉ Pi) as Hun.
        { intros o Ho. by eapply (unwritten H S Hinj False D isnew piece X0 mi Pi ts u o HI Hdis Hpre). }
        pose proof (Hpc u Hpu) as HstD. clear -Hun HstD Hag.
        intros u' Hu'. pose proof (subtrie_stored H D _ _ Hu' HstD) as Hst'. clear HstD.
        assert (∀ o, osub o u' → oloc H o ∉ Pi) as Hun'.
        { intros o Ho. apply Hun. by eapply osub_mono. }
        clear Hu' Hun. induction u' as [k e|l IHl r IHr]; cbn [stored] in *.
        * unfold has in *. pose proof (Hun' (OT (TLeaf k e)) ltac:(constructor)) as H1.
          pose proof (Hun' (OD k e) ltac:(constructor)) as H2. simpl in H1, H2. by rewrite !Hag.
        * destruct Hst' as (H1 & H2 & H3). split_and!.
          -- unfold has in *. rewrite Hag; [done|]. apply (Hun' (OT (TNode l r))). constructor.
          -- apply IHl; [done|]. intros o Ho. apply Hun'. eapply osub_mono; [done|]. apply sub_l. constructor.
          -- apply IHr; [done|]. intros o Ho. apply Hun'. eapply osub_mono; [done|]. apply sub_r. constructor.
      + apply dom_put; [done|done|]. simpl. by eapply bumped_least.
      + intros l0. rewrite !not_elem_of_cons. intros (? & ?). rewrite lookup_insert_ne by done. by apply Hag.
      + intros l0. rewrite !nrefs_put. destruct (decide _) as [<-|]; [|done]. unfold nrefs. by rewrite Hag.
    - exists mi, Pi. split_and!; try done. intros l nd Hl. destruct (decide (lloc H k e = l)) as [<-|Hne].
      + rewrite lookup_insert. eexists. split; [done|]. simpl.
        destruct (Hd _ _ Hl) as (nd' & Hm & Hv & _). destruct Hst as [Hst _].
        apply has_lookup in Hst as [rf' Hst]. rewrite Hm in Hst. injection Hst as ->. simpl in Hv.
        split; [done|]. destruct Hb as [_ Hb]. specialize (Hle (lloc H k e)). specialize (Hfl (lloc H k e)).
        unfold nrefs at 1 in Hle. rewrite Hl in Hle. lia.
      + rewrite lookup_insert_ne by done. by apply Hd.
    - eexists _, _. split; [|split; [|split]].
      + eapply Hstep; [|reflexivity]. by apply ev_merge.
      + by apply dom_put.
      + intros l0. rewrite !not_elem_of_cons. intros (? & ?). rewrite lookup_insert_ne by done. by apply Hag.
      + intros l0. rewrite !nrefs_put. destruct (decide _) as [<-|]; [|done]. lia.
  Qed.
  Lemma evs_replay x y : rtc evw x y → toward t y → ∀ mi Pi, follows x.1.1 x mi Pi →
    ∃ mi' Pi', follows y.1.1 y mi' Pi'.
  Proof using Hinj Hfl Hbranch Hjoin Hp0 Hpc.
    induction 1 as [|x y z Hev Hevs IH]; [eauto|]. intros Ht mi Pi HI.
    destruct (ev_replay x y Hev ltac:(by eapply evs_toward) mi Pi HI) as (mi' & Pi' & HI').
    by eapply IH.
  Qed.
End Replay.

(** ** Removal *)
Section WeakRemove.
  Context {n : nat} (H : list bytes → arr n).
  Context (S : list bytes → Prop) (Hinj : inj_on H S).
  Context (B : backend n) {HB : BackendOk B} (X : list (arr n)).
  Implicit Types (s : b_st B) (q : list (obj n)) (t : trie n) (o : obj n) (m D : db n).

  (** The database contains one in which the references [X] are all counted. *)
  Definition counted Y s D : Prop :=
    RC False D Y ∧ proper H S D ∧ wpr H S D (b_vis B s) ∧ wpr H S D (bview s) ∧ cle (b_vis B s) (bview s).
  Definition wJ s : Prop := ∃ D, counted X s D.

  Lemma counted_less Y Z s D : counted (Y ++ Z) s D → counted Y s D.
  Proof using. intros (HR & Hrest). split; [by eapply RC_less|done]. Qed.
  Lemma counted_flush Y s D : counted Y s D → counted Y (b_flush B s) D.
  Proof using.
    intros (?&?&?&?&?). unfold counted. rewrite bvis_flush, bview_flush. split_and!; try done. apply cle_refl.
  Qed.
  Lemma counted_drop Y s D : counted Y s D → counted Y (b_drop B s) D.
  Proof using.
    intros (?&?&?&?&?). unfold counted. rewrite bvis_drop, bview_drop. split_and!; try done. apply cle_refl.
  Qed.

  Lemma remove_loop_weak fuel q s D E : counted (X ++ (oloc H <$> q)) s D → Forall (opre_ok H S) q →
    length (locs H q) ≤ fuel →
    wp B H S wJ (remove_loop fuel (oloc H <$> q)) (λ _ s', wJ s' ∧ b_vis B s' = bview s' ∧ bpend s' = []) E s.
  Proof using Hinj.
    revert q s D. induction fuel as [|fuel IH]; intros q s D HC Hpre Hf.
    - destruct q as [|o q]; [|rewrite locs_cons in Hf; simpl in Hf; lia].
      cbn. apply counted_less in HC. apply counted_flush in HC. split; [by eexists|].
      split_and!; [by eexists|by rewrite bview_flush, bvis_flush|apply bpend_flush].
    - destruct q as [|o q].
      { cbn. apply counted_less in HC. apply counted_flush in HC. split; [by eexists|].
        split_and!; [by eexists|by rewrite bview_flush, bvis_flush|apply bpend_flush]. }
      rewrite fmap_cons. cbn [remove_loop get_node mbind prog_bind pbind Logic.wp].
      apply Forall_cons in Hpre as [Ho Hpre].
      rewrite locs_cons in Hf. cbn [length] in Hf. rewrite app_length in Hf.
      destruct HC as (HR & Hp & [Hs1 Hd1] & [Hs2 Hd2] & Hcle).
      destruct HR as (Hk & HX & Hc) eqn:HReq. clear HReq.
      destruct (HX (oloc H o)) as [nd0 Hnd0]; [apply elem_of_app; right; by left|].
      destruct (Hd1 _ _ Hnd0) as (nd & Hnd & Hv0 & Hr0). rewrite Hnd.
      destruct (proper_lookup H S Hinj D o nd0 Hp Ho Hnd0) as (Hv & _ & Hw).
      rewrite Hv in Hv0.
      assert (RC False D (oloc H o :: X ++ (oloc H <$> q))) as HR'.
      { eapply RC_perm; [|exact HR]. simpl. by rewrite Permutation_middle. }
      destruct (Nat.eqb_spec (refs nd - 1) 0) as [Hz|Hz].
      + (* deleted *)
        destruct (RC_delete False _ _ _ _ Hnd0 ltac:(lia) HR') as (HR1 & _ & _).
        rewrite Hv, okids_children in HR1.
        assert (counted (X ++ (oloc H <$> q ++ okids o)) (b_del B s (oloc H o)) (delete (oloc H o) D)) as HC'.
        { split_and!.
          - by rewrite fmap_app, (assoc_L (++)).
          - apply (shallow_proper H S Hinj); [|by destruct HR1]. apply shallow_delete. by apply proper_shallow.
          - rewrite bvis_del. split; [by apply shallow_delete|].
            intros l nd1 [Hne Hl]%lookup_delete_Some. rewrite lookup_delete_ne by done. by apply Hd1.
          - split.
            + intros l nd1 Hl. apply bview_del_sub in Hl. by apply Hs2.
            + intros l nd1 [Hne Hl]%lookup_delete_Some. rewrite bview_del_ne by done. by apply Hd2.
          - rewrite bvis_del. intros l v Hl. apply has_lookup in Hl as [rf Hl].
            apply lookup_delete_Some in Hl as [Hne Hl]. unfold has. rewrite bview_del_ne by done.
            apply Hcle. apply has_lookup. eauto. }
        assert (wp B H S wJ (remove_loop fuel (oloc H <$> q ++ okids o))
          (λ _ s', wJ s' ∧ b_vis B s' = bview s' ∧ bpend s' = []) E (b_del B s (oloc H o))) as Hwp.
        { eapply IH; [exact HC'| |].
          - apply Forall_app. split; [done|]. by apply opre_kids.
          - rewrite locs_app, app_length. lia. }
        assert (wJ (b_del B s (oloc H o))) as HwJ.
        { eexists. by eapply counted_less. }
        rewrite fmap_app, <- okids_children in Hwp. rewrite Hv0.
        destruct o as [[k e|l r]|k e]; cbn [ovar tvar children] in *;
          cbn [db_remove mbind prog_bind pbind Logic.wp]; (split; [done|]); try done.
        by rewrite app_nil_r in Hwp.
      + (* one reference less *)
        set (nd' := Node (refs nd - 1) (var nd)).
        set (D' := if decide (refs nd0 ≤ refs nd - 1) then D else <[oloc H o := Node (refs nd0 - 1) (var nd0)]> D).
        assert (RC False D' (X ++ (oloc H <$> q))) as HR1.
        { unfold D'. destruct (decide _).
          - apply (RC_less False D _ [oloc H o]). eapply RC_perm; [|exact HR'].
            by rewrite (Permutation_app_comm _ [oloc H o]).
          - apply RC_drop; [done|lia|done]. }
        assert (shallow H S D') as HsD.
        { unfold D'. destruct (decide _); [by apply proper_shallow|].
          apply shallow_put; try done. by apply proper_shallow. }
        assert (dom_by D' D) as HdD.
        { unfold D'. destruct (decide _); [apply dom_refl|]. intros l nd1 [[<- <-]|[Hne Hl]]%lookup_insert_Some.
          - exists nd0. split_and!; [done|done|]. simpl. lia.
          - exists nd1. done. }
        assert (wpr H S D' (<[oloc H o := nd']> (bview s))) as Hwv.
        { split; [by apply shallow_put|]. intros l nd1 Hl. destruct (decide (oloc H o = l)) as [<-|Hne].
          - rewrite lookup_insert. exists nd'. split; [done|]. unfold D' in Hl. destruct (decide _).
            + rewrite Hnd0 in Hl. injection Hl as <-. simpl. split; [congruence|lia].
            + rewrite lookup_insert in Hl. injection Hl as <-. simpl. split; [congruence|lia].
          - rewrite lookup_insert_ne by done. by apply (dom_sub D D'). }
        assert (counted (X ++ (oloc H <$> q)) (b_put B s (oloc H o) nd') D') as HC'.
        { split_and!; rewrite ?bview_put.
          - done.
          - apply (shallow_proper H S Hinj); [done|by destruct HR1].
          - destruct (bvis_put s (oloc H o) nd') as [->| ->]; [|by rewrite bview_put].
            split; [done|]. by eapply dom_sub.
          - done.
          - destruct (bvis_put s (oloc H o) nd') as [->| ->]; [|rewrite bview_put; apply cle_refl].
            eapply cle_trans; [exact Hcle|]. by apply (shallow_put_cle H S Hinj). }
        cbn [db_insert mbind prog_bind pbind Logic.wp]. split.
        * eexists. by eapply counted_less.
        * eapply IH; [exact HC'|done|]. lia.
  Qed.
  Theorem remove_weak t s D E : counted (X ++ [troot H t]) s D →
    Forall S (tpre H t) → NoDup (tkeys t) →
    wp B H S wJ (remove_prog B s (troot H t)) (λ _ s', wJ s' ∧ b_vis B s' = bview s' ∧ bpend s' = []) E s.
  Proof using Hinj.
    intros HC Hpre Hnd. unfold remove_prog, remove.
    change [troot H t] with (oloc H <$> [OT t]) in *.
    eapply remove_loop_weak; [exact HC|by repeat constructor|].
    assert (stored H (b_vis B s) t) as Hst.
    { destruct HC as ((_ & HX & _) & Hp & [_ Hd] & _).
      destruct (HX (troot H t)) as [nd Hnd0]; [apply elem_of_app; right; by left|].
      destruct (proper_stored H S Hinj D t nd Hp Hpre Hnd0) as (_ & Hst & _).
      eapply stored_mono; [|exact Hst]. by apply dom_cle. }
    pose proof (nodup_size (b_vis B s) (locs H [OT t]) (locs_tree H S Hinj t Hnd Hpre) (locs_stored H _ _ Hst)). lia.
  Qed.
End WeakRemove.

(** ** Calls that return an error *)
Section Partial.
  Context {n : nat} (B : backend n) (H : list bytes → arr n).
  Context (S : list bytes → Prop) (J : b_st B → Prop).
  (** [J] in every state, [Q] at a normal return. *)
  Fixpoint swp {A} (p : prog n A) (Q : A → b_st B → Prop) (s : b_st B) : Prop :=
    match p with
    | Ret a => Q a s
    | Throw _ | Panic | Fuel => True
    | Hash cs k => S cs → swp (k (H cs)) Q s
    | Get l k => swp (k (b_vis B s !! l)) Q s
    | Put l nd k => J (b_put B s l nd) ∧ swp k Q (b_put B s l nd)
    | Del l k => J (b_del B s l) ∧ swp k Q (b_del B s l)
    | Flush k => J (b_flush B s) ∧ swp k Q (b_flush B s)
    end.
  Lemma swp_bind {A C} (f : A → prog n C) p Q s :
    swp p (λ a s', swp (f a) Q s') s → swp (p ≫= f) Q s.
  Proof.
    revert s. induction p as [a|e| | |cs k IH|l k IH|l nd k IH|l k IH|k IH];
      intros s; simpl; auto; naive_solver.
  Qed.
  Lemma swp_mono {A} (p : prog n A) (Q Q' : A → b_st B → Prop) s :
    (∀ a s, Q a s → Q' a s) → swp p Q s → swp p Q' s.
  Proof.
    intros HQ. revert s. induction p as [a|e| | |cs k IH|l k IH|l nd k IH|l k IH|k IH];
      intros s; simpl; auto; naive_solver.
  Qed.
  Lemma swp_lift {A} (r : res A) (Q : A → b_st B → Prop) s : (∀ a, r = Ok a → Q a s) → swp (lift r) Q s.
  Proof. destruct r; simpl; auto. Qed.

  (** If the call returns an error, [J] held in every state. *)
  Definition esafe {A} (p : prog n A) (s : b_st B) : Prop :=
    ∀ er, out B H p s = RErr er → (∀ x, x ∈ hlog B H p s → S x) → Forall J (states B H p s).
  Lemma esafe_bind {A C} (f : A → prog n C) p s : J s →
    swp p (λ a s', J s' ∧ esafe (f a) s') s → esafe (p ≫= f) s.
  Proof.
    unfold esafe, out, hlog. revert s.
    induction p as [a|e| | |cs k IH|l k IH|l nd k IH|l k IH|k IH]; intros s HJ; cbn; intros Hw er Ho Hl; try done.
    - by eapply (proj2 Hw).
    - by repeat constructor.
    - constructor; [done|]. specialize (IH (H cs) s HJ).
      change (k (H cs) ≫= f) with (pbind f (k (H cs))) in IH.
      destruct (run B H (pbind f (k (H cs))) s) as [[o s'] log]. cbn in *.
      apply (IH (Hw (Hl _ (elem_of_list_here _ _))) er Ho). intros x Hx. apply Hl. by constructor.
    - constructor; [done|]. by eapply IH.
    - constructor; [done|]. destruct Hw. by eapply IH.
    - constructor; [done|]. destruct Hw. by eapply IH.
    - constructor; [done|]. destruct Hw. by eapply IH.
  Qed.

  Fixpoint no_throw {A} (p : prog n A) : Prop :=
    match p with
    | Ret _ | Panic | Fuel => True
    | Throw _ => False
    | Hash cs k => ∀ h, no_throw (k h)
    | Get l k => ∀ o, no_throw (k o)
    | Put l nd k => no_throw k
    | Del l k => no_throw k
    | Flush k => no_throw k
    end.
  Lemma no_throw_bind {A C} (p : prog n A) (f : A → prog n C) :
    no_throw p → (∀ a, no_throw (f a)) → no_throw (p ≫= f).
  Proof using.
    induction p as [a|e| | |cs k IH|l k IH|l nd k IH|l k IH|k IH]; cbn; auto; intros; apply IH; auto.
  Qed.
  Lemma no_throw_out {A} (p : prog n A) s er : no_throw p → out B H p s ≠ RErr er.
  Proof using.
    unfold out. revert s. induction p as [a|e| | |cs k IH|l k IH|l nd k IH|l k IH|k IH]; intros s; cbn; auto.
    intros Hp. specialize (IH (H cs) s (Hp (H cs))).
    destruct (run B H (k (H cs)) s) as [[o s'] log]. done.
  Qed.
  Lemma esafe_no_throw {A} (p : prog n A) s : no_throw p → esafe p s.
  Proof using. intros Hp er Ho. by apply no_throw_out in Ho. Qed.
End Partial.

Section NoThrow.
  Context {n : nat}.
  Implicit Types (rs : list (tref n)).
  Lemma lookahead_no_err fuel rs p c er : length rs ≤ c + fuel → lookahead fuel rs p c ≠ Err er.
  Proof.
    revert c. induction fuel as [|fuel IH]; intros c Hc; cbn [lookahead]; unfold index.
    - destruct (rs !! (p + c)) as [r|] eqn:Hr; [|done]. apply lookup_lt_Some in Hr. lia.
    - destruct (rs !! (p + c)) as [r|] eqn:Hr; [|done]. cbn [mbind res_bind].
      destruct (Nat.ltb_spec c (tcount r)); [|done]. apply IH. lia.
  Qed.
  Lemma index_no_err {A} (xs : list A) i er : index xs i ≠ Err er.
  Proof. unfold index. by destruct (xs !! i). Qed.
  Lemma no_throw_lift {A} (r : res A) : (∀ er, r ≠ Err er) → no_throw (n := n) (lift r).
  Proof. destruct r; cbn; auto. intros Hr. by apply (Hr e). Qed.
  Lemma merge_one_no_throw rs it : no_throw (merge_one rs it).
  Proof.
    destruct it as [[sp p] q]. unfold merge_one.
    apply no_throw_bind; [apply no_throw_lift, index_no_err|]. intros rp.
    apply no_throw_bind; [apply no_throw_lift, index_no_err|]. intros rn.
    apply no_throw_bind.
    { apply no_throw_lift. intros er. destruct (1 <? tcount rn); [|done]. apply lookahead_no_err. lia. }
    intros la. apply no_throw_bind; [apply no_throw_lift, index_no_err|]. intros rl. done.
  Qed.
  Lemma merge_level_no_throw rs loc lv : no_throw (merge_level rs loc lv).
  Proof.
    revert rs loc. induction lv as [|it lv IH]; intros rs loc; [done|]. cbn [merge_level].
    apply no_throw_bind; [apply merge_one_no_throw|]. intros; apply IH.
  Qed.
  Lemma merge_all_no_throw rs root levels : (is_Some root ∨ levels ≠ []) →
    no_throw (o ← merge_all rs root levels;
              match o with Some root => mret root | None => Throw "Failed to get root." end).
  Proof.
    revert rs root. induction levels as [|lv levels IH]; intros rs root Hr.
    - destruct Hr as [[r ->]|]; done.
    - cbn [merge_all]. unfold merge_nodes.
      assert (∀ (p : prog n (list (tref n) * arr n)) (g : list (tref n) * arr n → prog n (option (arr n))) (f : option (arr n) → prog n (arr n)),
        no_throw p → (∀ a, no_throw (g a ≫= f)) → no_throw ((p ≫= g) ≫= f)) as Hassoc.
      { clear. intros p g f Hp Hg. revert Hp.
        induction p as [a|e| | |cs k IH|l k IH|l nd k IH|l k IH|k IH]; cbn; intros Hp; try done; try (intros; by apply IH). }
      apply Hassoc.
      + apply no_throw_bind; [apply merge_level_no_throw|done].
      + intros a. apply IH. left. by eexists.
  Qed.
End NoThrow.

Section WeakFail.
  Context {n : nat} (H : list bytes → arr n).
  Context (S : list bytes → Prop) (Hinj : inj_on H S).
  Context (B : backend n) {HB : BackendOk B} (D : db n) (HD : shallow H S D).
  Context {V : Type} (encode : V → res bytes) (max_depth : nat).
  Implicit Types (s : b_st B).
  Notation J := (Jp (wpr H S D) B ∅).
  Notation swpJ := (swp B H S J).
  Notation esafeJ := (esafe B H S J).

  Lemma Jw_put s o nd : J s → opre_ok H S o → opwf o → var nd = ovar H o → nrefs D (oloc H o) ≤ refs nd →
    J (b_put B s (oloc H o) nd).
  Proof using Hinj HD.
    intros (H1 & [Hs2 Hd2] & Hc & _) Ho Hw Hv Hfl.
    assert (wpr H S D (<[oloc H o := nd]> (bview s))) as Hw'.
    { split; [by apply shallow_put|]. intros l nd0 Hl. destruct (decide (oloc H o = l)) as [<-|Hne].
      - rewrite lookup_insert. exists nd. split; [done|].
        destruct (shallow_at H S Hinj D o _ HD Ho Hl) as [Hv' _]. split; [congruence|].
        unfold nrefs in Hfl. by rewrite Hl in Hfl.
      - rewrite lookup_insert_ne by done. by apply Hd2. }
    unfold Jp. rewrite bview_put.
    destruct (bvis_put s (oloc H o) nd) as [->| ->]; rewrite ?bview_put; split_and!; try done.
    - eapply cle_trans; [exact Hc|]. by apply (shallow_put_cle H S Hinj).
    - apply cle_refl.
  Qed.
  Lemma Jw_flush s : J s → J (b_flush B s).
  Proof using. intros (?&?&?&?). unfold Jp. rewrite bvis_flush, bview_flush. split_and!; try done; apply cle_refl. Qed.

  (** A node read from the database. *)
  Definition okn (l : arr n) (nd : node n) : Prop :=
    ∃ o, opre_ok H S o ∧ opwf o ∧ oloc H o = l ∧ ovar H o = var nd ∧ nrefs D l ≤ refs nd.
  Lemma okn_read s l nd : J s → b_vis B s !! l = Some nd → okn l nd.
  Proof using.
    intros ([Hs Hd] & _) Hl. destruct (Hs _ _ Hl) as (o & ?&?&?&?). exists o. split_and!; try done.
    pose proof (dom_nrefs D _ l Hd) as Hr. unfold nrefs at 2 in Hr. by rewrite Hl in Hr.
  Qed.
  Lemma okn_put s l nd : J s → okn l nd → J (b_put B s l (Node (refs nd + 1) (var nd))).
  Proof using Hinj HD.
    intros HJ (o & Ho & Hw & <- & Hv & Hr). apply Jw_put; try done. simpl. lia.
  Qed.

  Lemma insert_leaves_fail vm ks s : J s → swpJ (insert_leaves encode vm ks) (λ _ s', J s') s.
  Proof using Hinj HD.
    revert s. induction ks as [|k ks IH]; intros s HJ; [done|]. cbn [insert_leaves]. apply swp_bind.
    unfold insert_leaves_one. destruct (vm !! k) as [v|]; [|done].
    apply swp_bind, swp_lift. intros e _.
    cbn [hash get_node db_insert mbind prog_bind pbind mret prog_ret swp]. intros HS1 HS2.
    assert (∀ l, nrefs D l ≤ match b_vis B s !! l with Some nd => refs nd + 1 | None => 1 end) as Hr.
    { intros l. destruct HJ as ([_ Hd] & _). pose proof (dom_nrefs D _ l Hd) as Hr. unfold nrefs at 2 in Hr.
      destruct (b_vis B s !! l); lia. }
    assert (J (b_put B s (H (data_in k e)) (Node (match b_vis B s !! H (data_in k e) with Some nd => refs nd + 1 | None => 1 end) (VData e)))) as HJ1.
    { apply (Jw_put s (OD k e)); try done; [by repeat constructor|]. simpl. apply Hr. }
    split; [done|].
    assert (J (b_put B (b_put B s (H (data_in k e)) (Node (match b_vis B s !! H (data_in k e) with Some nd => refs nd + 1 | None => 1 end) (VData e)))
      (H (leaf_in k (H (data_in k e)))) (Node (match b_vis B s !! H (leaf_in k (H (data_in k e))) with Some nd => refs nd + 1 | None => 1 end) (VLeaf k (H (data_in k e)))))) as HJ2.
    { apply (Jw_put _ (OT (TLeaf k e))); try done; [by repeat constructor|]. simpl. apply Hr. }
    split; [done|]. apply swp_bind. eapply swp_mono; [|by apply IH]. done.
  Qed.
  Lemma insert_leaf_fail l s : J s → swpJ (insert_leaf l) (λ _ s', J s') s.
  Proof using Hinj HD.
    intros HJ. unfold insert_leaf. cbn [get_node mbind prog_bind pbind swp].
    destruct (b_vis B s !! l) as [nd|] eqn:Hl; [|done]. cbn [db_insert swp].
    assert (J (b_put B s l (Node (refs nd + 1) (var nd)))) by (eapply okn_put; [done|by eapply okn_read]).
    done.
  Qed.
  Definition okcell (c : cell) : Prop := okn (cloc c) (cnode c).
  Lemma split_nodes_fail d b ks s : J s →
    swpJ (split_nodes (n := n) d b ks) (λ r s', J s' ∧ match r with inr c => okcell c | inl _ => True end) s.
  Proof using Hinj HD.
    intros HJ. unfold split_nodes. cbn [get_node mbind prog_bind pbind swp].
    destruct (b_vis B s !! b) as [nd|] eqn:Hl; [|done].
    pose proof (okn_read s b nd HJ Hl) as Hok. pose proof (okn_put s b nd HJ Hok) as HJ'.
    destruct ks as [|k ks]; [|done].
    destruct (var nd) eqn:Hv; cbn [db_insert mbind prog_bind pbind swp mret prog_ret]; done.
  Qed.
  Lemma traverse_fail fuel km acc q s : J s → Forall okcell q →
    swpJ (traverse_tree max_depth fuel km acc q) (λ _ s', J s') s.
  Proof using Hinj HD.
    revert acc q s. induction fuel as [|fuel IH]; intros acc [|c q] s HJ Hq; try done.
    apply Forall_cons in Hq as [Hc Hq]. cbn [traverse_tree].
    destruct (max_depth <? cdepth c); [done|].
    destruct (var (cnode c)) as [count zero one si bk|lk ld|e] eqn:Hv; [| |done].
    - apply swp_bind, swp_lift. intros mi _.
      assert (∀ ds, swpJ (if (mi <? si) && (length ds =? 0) then
                    db_insert (cloc c) (Node (refs (cnode c) + 1) (VBranch count zero one si bk)) ;;
                    traverse_tree max_depth fuel km (acc ++ [TRef bk (cloc c) count 1]) q
                  else
                    zo ← lift (split_pairs ds si);
                    r1 ← split_nodes (cdepth c) one zo.2;
                    let '(acc, q) := push_split r1 acc q in
                    r0 ← split_nodes (cdepth c) zero zo.1;
                    let '(acc, q) := push_split r0 acc q in
                    traverse_tree max_depth fuel km acc q) (λ _ s', J s') s) as Hds.
      { intros ds. destruct ((mi <? si) && (length ds =? 0)).
        - cbn [db_insert mbind prog_bind pbind swp].
          assert (J (b_put B s (cloc c) (Node (refs (cnode c) + 1) (VBranch count zero one si bk)))) as HJ'.
          { rewrite <- Hv. by apply okn_put. }
          split; [done|]. by apply IH.
        - apply swp_bind, swp_lift. intros zo _. apply swp_bind.
          eapply swp_mono; [|by apply split_nodes_fail]. intros r1 s1 [HJ1 Hr1]. cbn beta.
          destruct (push_split r1 acc q) as [acc1 q1] eqn:Hps.
          assert (Forall okcell q1) as Hq1.
          { destruct r1; simpl in Hps; simplify_eq; [done|by constructor]. }
          apply swp_bind. eapply swp_mono; [|by apply split_nodes_fail]. intros r0 s0 [HJ0 Hr0]. cbn beta.
          destruct (push_split r0 acc1 q1) as [acc2 q2] eqn:Hps'.
          apply IH; [done|]. destruct r0; simpl in Hps'; simplify_eq; [done|by constructor]. }
      apply swp_bind. destruct (mi <? si).
      + apply swp_lift. intros ds _. apply Hds.
      + apply Hds.
    - destruct (km !! lk) as [l|].
      + destruct (decide (l = cloc c)); [|by apply IH].
        apply swp_bind. eapply swp_mono; [|by apply insert_leaf_fail]. intros ? s' HJ'. by apply IH.
      + apply swp_bind. eapply swp_mono; [|by apply insert_leaf_fail]. intros ? s' HJ'. by apply IH.
  Qed.
  Lemma create_tree_fail rs s : J s → esafeJ (create_tree rs) s.
  Proof using.
    intros HJ. destruct rs as [|r [|r' rs]].
    - intros er _ _. exact (Forall_cons_2 _ _ _ HJ (Forall_nil_2 _)).
    - intros er Ho. done.
    - unfold create_tree. set (rs0 := sort_refs _). intros er.
      destruct (generate_items 0 rs0) as [items|er'|].
      + cbn [lift mbind prog_bind pbind].
        destruct (levels_of items) as [|lv lvs] eqn:Hlv.
        * intros _ _. exact (Forall_cons_2 _ _ _ HJ (Forall_nil_2 _)).
        * apply esafe_no_throw. apply (merge_all_no_throw rs0 None (lv :: lvs)). by right.
      + intros _ _. exact (Forall_cons_2 _ _ _ HJ (Forall_nil_2 _)).
      + done.
  Qed.
  Lemma insert_fail prev ks vs s : J s → esafeJ (insert encode max_depth prev ks vs) s.
  Proof using Hinj HD.
    intros HJ. unfold insert.
    destruct (negb _); [intros er _ _; exact (Forall_cons_2 _ _ _ HJ (Forall_nil_2 _))|].
    destruct (_ || _); [intros er _ _; exact (Forall_cons_2 _ _ _ HJ (Forall_nil_2 _))|].
    unfold insert_sorted. apply esafe_bind; [done|].
    eapply swp_mono; [|by apply insert_leaves_fail]. intros nodes s1 HJ1. split; [done|].
    apply esafe_bind; [done|]. destruct prev as [root|].
    - unfold generate_treerefs. cbn [get_node mbind prog_bind pbind swp].
      destruct (b_vis B s1 !! root) as [nd|] eqn:Hr; [|done].
      eapply swp_mono; [|apply traverse_fail].
      + intros ps s2 HJ2. split; [done|]. by apply create_tree_fail.
      + done.
      + constructor; [|done]. by apply (okn_read s1).
    - cbn. split; [done|]. by apply create_tree_fail.
  Qed.
End WeakFail.

(** ** Any call, on a database that may be damaged
    Nothing is assumed of the previous root, which may be partly removed, or of
    the batch.  The call keeps the nodes [D], with at least their counts, as long
    as it makes no branch of [D] that is counted more than once. *)

(** Programs that only hash and write. *)
Section Emits.
  Context {n : nat} (H : list bytes → arr n) (T : list bytes → Prop).
  (** Every write satisfies [R]. *)
  Fixpoint emits {A} (R : arr n → node n → Prop) (p : prog n A) : Prop :=
    match p with
    | Ret _ | Throw _ | Panic | Fuel => True
    | Hash cs k => T cs → emits R (k (H cs))
    | Get _ _ | Del _ _ => False
    | Put l nd k => R l nd ∧ emits R k
    | Flush k => emits R k
    end.
  Lemma emits_bind {A C} R (p : prog n A) (f : A → prog n C) :
    emits R p → (∀ a, emits R (f a)) → emits R (p ≫= f).
  Proof.
    intros Hp Hf. induction p as [a|e| | |cs k IH|l k IH|l nd k IH|l k IH|k IH]; cbn in *; auto; naive_solver.
  Qed.
  Lemma emits_and {A} R R' (p : prog n A) : emits R p → emits R' p → emits (λ l nd, R l nd ∧ R' l nd) p.
  Proof. induction p as [a|e| | |cs k IH|l k IH|l nd k IH|l k IH|k IH]; cbn in *; naive_solver. Qed.
  Lemma emits_lift {A} R (r : res A) : emits R (lift (n := n) r).
  Proof. by destruct r. Qed.

  (** Merging writes branches, with a count of one. *)
  Definition branch_put (l : arr n) (nd : node n) : Prop :=
    refs nd = 1 ∧ ∃ z o : arr n, T (branch_in z o) ∧ l = H (branch_in z o).
  Lemma merge_one_emits rs it : emits branch_put (merge_one rs it).
  Proof.
    destruct it as [[sp p] q]. unfold merge_one.
    apply emits_bind; [apply emits_lift|]. intros rp.
    apply emits_bind; [apply emits_lift|]. intros rn.
    apply emits_bind; [apply emits_lift|]. intros la.
    apply emits_bind; [apply emits_lift|]. intros rl. cbn. intros Ht. split; [|done].
    split; [done|]. eauto.
  Qed.
  Lemma merge_level_emits rs loc lv : emits branch_put (merge_level rs loc lv).
  Proof.
    revert rs loc. induction lv as [|it lv IH]; intros rs loc; [done|]. cbn [merge_level].
    apply emits_bind; [apply merge_one_emits|]. intros; apply IH.
  Qed.
  Lemma merge_all_emits rs root levels : emits branch_put (merge_all rs root levels).
  Proof.
    revert rs root. induction levels as [|lv levels IH]; intros rs root; [done|].
    cbn [merge_all]. apply emits_bind; [|intros; apply IH]. unfold merge_nodes.
    apply emits_bind; [apply merge_level_emits|done].
  Qed.
  Lemma create_tree_emits rs : emits branch_put (create_tree rs).
  Proof.
    destruct rs as [|r [|r' rs]]; [done|done|]. unfold create_tree.
    apply emits_bind; [apply emits_lift|]. intros items.
    apply emits_bind; [apply merge_all_emits|]. by intros [].
  Qed.
  (** Whatever an invariant of the states says of the node just written. *)
  Lemma wp_emits {A} (S : list bytes → Prop) (J : db n → Prop) (R R' : arr n → node n → Prop) (p : prog n A) Q E (s : db n) :
    (∀ x, T x → S x) → (∀ m l nd, J m → m !! l = Some nd → R l nd) → emits R' p →
    wp (hash_db n) H S J p Q E s → emits R p.
  Proof.
    intros HT HR. revert s. induction p as [a|e| | |cs k IH|l k IH|l nd k IH|l k IH|k IH]; intros s; cbn; try done.
    - intros Hp Hw Ht. eapply IH; auto.
    - intros [_ Hp] [HJ Hw]. split; [|by eapply IH]. eapply HR; [exact HJ|]. apply lookup_insert.
    - intros Hp [_ Hw]. by eapply IH.
  Qed.
  Lemma emits_swp {A} (B : backend n) (J : b_st B → Prop) (R : arr n → node n → Prop) (p : prog n A) (s : b_st B) :
    (∀ s l nd, J s → R l nd → J (b_put B s l nd)) → (∀ s, J s → J (b_flush B s)) → J s →
    emits R p → swp B H T J p (λ _ s', J s') s.
  Proof.
    intros HP HF. revert s. induction p as [a|e| | |cs k IH|l k IH|l nd k IH|l k IH|k IH]; intros s HJ; cbn; try done.
    - intros Hp Ht. by apply IH; auto.
    - intros [HR Hp]. split; [by apply HP|]. apply IH; auto.
    - intros Hp. split; [by apply HF|]. apply IH; auto.
  Qed.
End Emits.

Lemma swp_states {n} (B : backend n) (H : list bytes → arr n) (T : list bytes → Prop) (J : b_st B → Prop) {A} (p : prog n A) (Q : A → b_st B → Prop) s :
  J s → swp B H T J p Q s → (∀ x, x ∈ hlog B H p s → T x) → Forall J (states B H p s).
Proof.
  unfold hlog. revert s. induction p as [a|e| | |cs k IH|l k IH|l nd k IH|l k IH|k IH]; intros s HJ; cbn; intros Hw Hl;
    try (by repeat constructor).
  - constructor; [done|]. destruct (run B H (k (H cs)) s) as [[o s'] log] eqn:Hr. cbn in Hl.
    apply IH; [done| |].
    + apply Hw, Hl. by left.
    + rewrite Hr. cbn. intros x Hx. apply Hl. by right.
  - constructor; [done|]. by apply IH.
  - constructor; [done|]. destruct Hw. by apply IH.
  - constructor; [done|]. destruct Hw. by apply IH.
  - constructor; [done|]. destruct Hw. by apply IH.
Qed.

Section Any.
  Context {n : nat} (Hn : 0 < n) (H : list bytes → arr n).
  Context (S : list bytes → Prop) (Hinj : inj_on H S).
  Context (B : backend n) {HB : BackendOk B} (D : db n) (HD : shallow H S D).
  Context {V : Type} (encode : V → res bytes) (max_depth : nat).
  (** The strings this call hashes. *)
  Context (T : list bytes → Prop) (HT : ∀ x, T x → S x).
  Context (HTD : ∀ z o : arr n, T (branch_in z o) → nrefs D (H (branch_in z o)) ≤ 1).
  Implicit Types (s : b_st B) (t : trie n) (m : db n).
  Notation J := (Jp (wpr H S D) B ∅).
  Notation swpT := (swp B H T J).

  Definition good t : Prop := tpwf t ∧ Forall S (tpre H t).
  Definition ref_ok (r : tref n) : Prop := ∃ t, r = ref_of H t ∧ good t.
  Lemma refs_ok rs : Forall ref_ok rs → ∃ ts, rs = ref_of H <$> ts ∧ Forall good ts.
  Proof.
    induction 1 as [|r rs (t & -> & Ht) _ (ts & -> & Hts)]; [by exists []|]. exists (t :: ts). split; [done|by constructor].
  Qed.

  (** There is a database in which given tries are stored. *)
  Lemma grow t m : proper H S m → good t → ∃ m', cle m m' ∧ proper H S m' ∧ stored H m' t.
  Proof.
    pose proof (proper_keeps H S Hinj) as Hk.
    revert m. induction t as [k e|l IHl r IHr]; intros m Hp [Hw Hpre].
    - pose proof Hpre as Hpre'. cbn in Hpre'. rewrite !Forall_cons in Hpre'. destruct Hpre' as (H1 & H2 & _).
      set (m1 := <[oloc H (OD k e) := Node 1 (VData e)]> m).
      assert (opre_ok H S (OD k e)) as Ho1 by (by repeat constructor).
      assert (proper H S m1) as Hp1 by (apply (keeps_put _ _ _ _ Hk); simpl; auto; lia).
      assert (cle m m1) as Hc1 by (by apply (keeps_cle _ _ _ _ Hk)).
      assert (has m1 (dloc H k e) (VData e)) as Hd1.
      { unfold has, m1. cbn [oloc]. by rewrite lookup_insert. }
      set (m2 := <[oloc H (OT (TLeaf k e)) := Node 1 (tvar H (TLeaf k e))]> m1).
      assert (proper H S m2) as Hp2 by (apply (keeps_put _ _ _ _ Hk); simpl; auto; lia).
      assert (cle m1 m2) as Hc2 by (by apply (keeps_cle _ _ _ _ Hk)).
      exists m2. split_and!; [by eapply cle_trans|done|]. cbn [stored]. split; [|by apply Hc2].
      unfold has, m2. cbn [oloc troot]. by rewrite lookup_insert.
    - pose proof Hpre as Hpre'. cbn [tpre] in Hpre'. rewrite Forall_cons, Forall_app in Hpre'. destruct Hpre' as (H1 & H2 & H3).
      pose proof Hw as (Hw1 & Hw2 & Hw3).
      destruct (IHl m Hp (conj Hw1 H2)) as (m1 & Hc1 & Hp1 & Hs1).
      destruct (IHr m1 Hp1 (conj Hw2 H3)) as (m2 & Hc2 & Hp2 & Hs2).
      assert (stored H m2 l) as Hs1' by (by eapply stored_mono).
      set (m3 := <[oloc H (OT (TNode l r)) := Node 1 (tvar H (TNode l r))]> m2).
      assert (proper H S m3) as Hp3 by (apply (keeps_put _ _ _ _ Hk); auto; [by split|simpl; lia]).
      assert (cle m2 m3) as Hc3 by (by apply (keeps_cle _ _ _ _ Hk)).
      exists m3. split_and!; [|done|].
      + eapply cle_trans; [exact Hc1|]. by eapply cle_trans.
      + cbn [stored]. split_and!; [|by eapply stored_mono|by eapply stored_mono].
        unfold has, m3. cbn [oloc]. by rewrite lookup_insert.
  Qed.
  Lemma grow_list ts m : proper H S m → Forall good ts → ∃ m', cle m m' ∧ proper H S m' ∧ Forall (stored H m') ts.
  Proof.
    revert m. induction ts as [|t ts IH]; intros m Hp Hg; [exists m; split_and!; try done; apply cle_refl|].
    apply Forall_cons in Hg as [Ht Hg].
    destruct (grow t m Hp Ht) as (m1 & Hc1 & Hp1 & Hs1). destruct (IH m1 Hp1 Hg) as (m2 & Hc2 & Hp2 & Hs2).
    exists m2. split_and!; [by eapply cle_trans|done|]. constructor; [by eapply stored_mono|done].
  Qed.

  (** Merging sound references. *)
  Definition obj_put (l : arr n) (nd : node n) : Prop :=
    ∃ o, opre_ok H S o ∧ opwf o ∧ oloc H o = l ∧ ovar H o = var nd.
  Lemma create_tree_obj rs : Forall ref_ok rs → emits H T obj_put (create_tree rs).
  Proof.
    intros (ts & -> & Hts)%refs_ok. destruct ts as [|t0 ts]; [done|].
    destruct (grow_list (t0 :: ts) ∅ (proper_empty H S) Hts) as (m & _ & Hp & Hst).
    eapply (wp_emits H T S (Jp (proper H S) (hash_db n) ∅) obj_put (branch_put H T)); [done| |apply create_tree_emits|].
    - intros m' l nd (Hp' & _) Hl. destruct (Hp' l nd Hl) as (o & ?&?&?&?&_). by exists o.
    - apply (create_tree_wp Hn H S no_floor (λ _ _, True) (λ _, True) (λ _ _, True) (proper H S)
        (proper_keeps H S Hinj) (hash_db n) ∅ (t0 :: ts) m m []); [|done|].
      + split_and!; cbn [fst snd]; try done.
        * split_and!; try done. apply cle_refl.
        * apply Forall_forall. intros t Ht. rewrite Forall_forall in Hst, Hts.
          destruct (Hts t Ht). split_and!; auto.
      + intros ts0 _ _ x bs1 l r bs2 _ _ _ _ _ _. lia.
  Qed.
  Lemma create_tree_any rs s : J s → Forall ref_ok rs → swpT (create_tree rs) (λ _ s', J s') s.
  Proof.
    intros HJ Hrs.
    apply (emits_swp H T B J (λ l nd, branch_put H T l nd ∧ obj_put l nd)); [| |done|].
    - intros s' l nd HJ' [(Hr & z & o1 & Ht & ->) (o & Ho & Hw & Hl & Hv)].
      rewrite <- Hl. apply (Jw_put H S Hinj B D HD); try done. rewrite Hl, Hr. by apply HTD.
    - intros s' HJ'. by apply Jw_flush.
    - apply emits_and; [apply create_tree_emits|by apply create_tree_obj].
  Qed.

  Lemma insert_leaves_any vm ks s : J s →
    swpT (insert_leaves encode vm ks) (λ ls s', J s' ∧ Forall ref_ok (zip_with (λ l k, TRef k l 1 1) ls ks)) s.
  Proof.
    revert s. induction ks as [|k ks IH]; intros s HJ; [cbn; split; [done|constructor]|]. cbn [insert_leaves]. apply swp_bind.
    unfold insert_leaves_one. destruct (vm !! k) as [v|]; [|done].
    apply swp_bind, swp_lift. intros e _.
    cbn [hash get_node db_insert mbind prog_bind pbind mret prog_ret swp]. intros HS1%HT HS2%HT.
    assert (∀ l, nrefs D l ≤ match b_vis B s !! l with Some nd => refs nd + 1 | None => 1 end) as Hr.
    { intros l. destruct HJ as ([_ Hd] & _). pose proof (dom_nrefs D _ l Hd) as Hr. unfold nrefs at 2 in Hr.
      destruct (b_vis B s !! l); lia. }
    assert (J (b_put B s (H (data_in k e)) (Node (match b_vis B s !! H (data_in k e) with Some nd => refs nd + 1 | None => 1 end) (VData e)))) as HJ1.
    { apply (Jw_put H S Hinj B D HD s (OD k e)); try done; [by repeat constructor|]. simpl. apply Hr. }
    split; [done|].
    assert (J (b_put B (b_put B s (H (data_in k e)) (Node (match b_vis B s !! H (data_in k e) with Some nd => refs nd + 1 | None => 1 end) (VData e)))
      (H (leaf_in k (H (data_in k e)))) (Node (match b_vis B s !! H (leaf_in k (H (data_in k e))) with Some nd => refs nd + 1 | None => 1 end) (VLeaf k (H (data_in k e)))))) as HJ2.
    { apply (Jw_put H S Hinj B D HD _ (OT (TLeaf k e))); try done; [by repeat constructor|]. simpl. apply Hr. }
    split; [done|]. apply swp_bind. eapply swp_mono; [|by apply IH]. cbn beta.
    intros ls s' [HJ' Hls]. cbn. split; [done|]. constructor; [|done].
    exists (TLeaf k e). split; [done|]. split; [done|]. by repeat constructor.
  Qed.
  Lemma insert_leaf_any l s : J s → swpT (insert_leaf l) (λ _ s', J s') s.
  Proof.
    intros HJ. unfold insert_leaf. cbn [get_node mbind prog_bind pbind swp].
    destruct (b_vis B s !! l) as [nd|] eqn:Hl; [|done]. cbn [db_insert swp].
    assert (J (b_put B s l (Node (refs nd + 1) (var nd)))) by (eapply okn_put; [done|done|done|by eapply okn_read]).
    done.
  Qed.
  Notation okn := (okn H S D).
  Notation okcell := (okcell H S D).
  Lemma okn_branch l rf count zero one si bk : okn l (Node rf (VBranch count zero one si bk)) →
    ref_ok (TRef bk l count 1).
  Proof.
    intros (o & Ho & Hw & <- & Hv & _). destruct o as [[k e|t1 t2]|k e]; cbn in Hv; simplify_eq.
    exists (TNode t1 t2). split; [done|]. by split.
  Qed.
  Lemma okn_leaf l rf lk ld : okn l (Node rf (VLeaf lk ld)) → ref_ok (TRef lk l 1 1).
  Proof.
    intros (o & Ho & Hw & <- & Hv & _). destruct o as [[k e|t1 t2]|k e]; cbn in Hv; simplify_eq.
    exists (TLeaf lk e). split; [done|]. by split.
  Qed.
  Lemma split_nodes_any d b ks s : J s →
    swpT (split_nodes (n := n) d b ks) (λ r s', J s' ∧ match r with inr c => okcell c | inl r => ref_ok r end) s.
  Proof.
    intros HJ. unfold split_nodes. cbn [get_node mbind prog_bind pbind swp].
    destruct (b_vis B s !! b) as [[rf v]|] eqn:Hl; [|done].
    pose proof (okn_read H S B D s b _ HJ Hl) as Hok. pose proof (okn_put H S Hinj B D HD s b _ HJ Hok) as HJ'.
    destruct ks as [|k ks]; [|done]. cbn [var refs] in *.
    destruct v; cbn [db_insert mbind prog_bind pbind swp mret prog_ret]; [| |done].
    - split; [done|]. split; [done|]. by eapply okn_branch.
    - split; [done|]. split; [done|]. by eapply okn_leaf.
  Qed.
  Lemma push_split_any r acc q : match r with inr c => okcell c | inl r => ref_ok r end →
    Forall ref_ok acc → Forall okcell q →
    Forall ref_ok (push_split r acc q).1 ∧ Forall okcell (push_split r acc q).2.
  Proof.
    intros Hr Ha Hq. destruct r; cbn.
    - split; [|done]. apply Forall_app. split; [done|by repeat constructor].
    - split; [done|]. by constructor.
  Qed.
  Lemma traverse_any fuel km acc q s : J s → Forall okcell q → Forall ref_ok acc →
    swpT (traverse_tree max_depth fuel km acc q) (λ rs s', J s' ∧ Forall ref_ok rs) s.
  Proof.
    revert acc q s. induction fuel as [|fuel IH]; intros acc [|c q] s HJ Hq Ha; try done.
    apply Forall_cons in Hq as [Hc Hq]. cbn [traverse_tree].
    destruct (max_depth <? cdepth c); [done|].
    destruct c as [lc cks [rf v] dp]. unfold Weak.okcell in Hc. cbn [Model.cloc Model.cnode var refs ckeys cdepth] in *.
    destruct v as [count zero one si bk|lk ld|e] eqn:Hv; [| |done].
    - apply swp_bind, swp_lift. intros mi _.
      assert (∀ ds, swpT (if (mi <? si) && (length ds =? 0) then
                    db_insert lc (Node (rf + 1) (VBranch count zero one si bk)) ;;
                    traverse_tree max_depth fuel km (acc ++ [TRef bk lc count 1]) q
                  else
                    zo ← lift (split_pairs ds si);
                    r1 ← split_nodes dp one zo.2;
                    let '(acc, q) := push_split r1 acc q in
                    r0 ← split_nodes dp zero zo.1;
                    let '(acc, q) := push_split r0 acc q in
                    traverse_tree max_depth fuel km acc q) (λ rs s', J s' ∧ Forall ref_ok rs) s) as Hds.
      { intros ds. destruct ((mi <? si) && (length ds =? 0)).
        - cbn [db_insert mbind prog_bind pbind swp].
          pose proof (okn_put H S Hinj B D HD s lc _ HJ Hc) as HJ'. cbn [var refs] in HJ'.
          split; [done|]. apply IH; [done|done|]. apply Forall_app. split; [done|].
          repeat constructor. by eapply okn_branch.
        - apply swp_bind, swp_lift. intros zo _. apply swp_bind.
          eapply swp_mono; [|by apply split_nodes_any]. intros r1 s1 [HJ1 Hr1]. cbn beta.
          destruct (push_split_any r1 acc q Hr1 Ha Hq) as [Ha1 Hq1].
          destruct (push_split r1 acc q) as [acc1 q1]. cbn [fst snd] in *.
          apply swp_bind. eapply swp_mono; [|by apply split_nodes_any]. intros r0 s0 [HJ0 Hr0]. cbn beta.
          destruct (push_split_any r0 acc1 q1 Hr0 Ha1 Hq1) as [Ha2 Hq2].
          destruct (push_split r0 acc1 q1) as [acc2 q2]. cbn [fst snd] in *.
          by apply IH. }
      apply swp_bind. destruct (mi <? si).
      + apply swp_lift. intros ds _. apply Hds.
      + apply Hds.
    - destruct (km !! lk) as [l|].
      + destruct (decide (l = lc)); [|by apply IH].
        apply swp_bind. eapply swp_mono; [|by apply insert_leaf_any]. intros ? s' HJ'. by apply IH.
      + apply swp_bind. eapply swp_mono; [|by apply insert_leaf_any]. intros ? s' HJ'. apply IH; [done|done|].
        apply Forall_app. split; [done|]. repeat constructor. by eapply okn_leaf.
  Qed.
  Lemma insert_any prev ks vs s : J s → swpT (insert encode max_depth prev ks vs) (λ _ s', J s') s.
  Proof.
    intros HJ. unfold insert.
    destruct (negb _); [done|]. destruct (_ || _); [done|].
    unfold insert_sorted. apply swp_bind.
    eapply swp_mono; [|by apply insert_leaves_any]. intros nodes s1 [HJ1 Hls].
    apply swp_bind. destruct prev as [root|].
    - unfold generate_treerefs. cbn [get_node mbind prog_bind pbind swp].
      destruct (b_vis B s1 !! root) as [nd|] eqn:Hr; [|done].
      eapply swp_mono; [|apply traverse_any].
      + intros ps s2 [HJ2 Hps]. apply create_tree_any; [done|]. by apply Forall_app.
      + done.
      + constructor; [|done]. by apply (okn_read H S B D s1).
      + done.
    - cbn. apply create_tree_any; [done|]. rewrite app_nil_r. done.
  Qed.
End Any.

(** ** The invariant of [whist] *)
Section Weak.
  Context {n : nat} (Hn : 0 < n) (B : backend n) {HB : BackendOk B} (H : list bytes → arr n).
  Context {V : Type} (enc : V → res bytes) (dec : bytes → res V) (Hcodec : codec_ok enc dec).
  Implicit Types (st : b_st B) (lg L : list (list bytes)) (k r : arr n) (ks : list (arr n)) (vs : list V).
  Implicit Types (M : gmap (arr n) V) (hs : list (arr n * gmap (arr n) V)) (t : trie n) (e : bytes) (D : db n).
  Notation Sof L := (λ x, x ∈ L).
  Let Henc : ∀ v, enc v ≠ Pan := enc_no_panic _ _ Hcodec.

  (** The database contains, possibly among others and with larger counts, the
      nodes [D] of the trees of the handles in use, correctly counted. *)
  Record winv L st hs hts D : Prop := {
    winv_trees : Forall2 (tree_of H enc L) hs hts;
    winv_counted : counted H (Sof L) B (troot H <$> hts) st D;
    winv_reached : ∀ l, is_Some (D !! l) → reached H hts l;
  }.
  Lemma winv_pre L st hs hts D : winv L st hs hts D → Forall (λ t, Forall (Sof L) (tpre H t)) hts.
  Proof. intros [Ht _ _]. induction Ht as [|h t hs hts Hht _ IH]; constructor; [apply Hht|done]. Qed.
  Lemma winv_handles L st hs hts D : inj_on H (Sof L) → winv L st hs hts D →
    Forall (handle_ok H enc L D) hs ∧ Forall (handle_ok H enc L (b_vis B st)) hs.
  Proof.
    intros Hinj Hi.
    assert (Forall (handle_ok H enc L D) hs) as Hd.
    { pose proof (winv_pre _ _ _ _ _ Hi) as Hpre. destruct Hi as [Ht ((_ & HX & _) & Hp & _) _].
      apply Forall_forall. intros h Hh. apply elem_of_list_lookup in Hh as [i Hh].
      destruct (Forall2_lookup_l _ _ _ _ _ Ht Hh) as (t & Hi & (?&?&?&?)).
      exists t. split_and!; try done.
      destruct (HX (troot H t)) as [nd Hnd]; [by eapply elem_of_list_fmap_1, elem_of_list_lookup_2|].
      by eapply (proper_stored H (Sof L) Hinj _ t nd Hp). }
    split; [done|]. eapply handles_mono; [|exact Hd]. destruct Hi as [_ (_&_&[_ Hdom]&_) _]. by apply dom_cle.
  Qed.
  Lemma winv_step L st st' hs hts D m0 : winv L st hs hts D → Jp (wpr H (Sof L) D) B m0 st' → winv L st' hs hts D.
  Proof. intros [Ht (?&?&_) Hr] (?&?&?&_). constructor; try done. Qed.
  Lemma winv_J L st hs hts D : winv L st hs hts D → Jp (wpr H (Sof L) D) B (b_vis B st) st.
  Proof. intros [_ (?&?&?&?&?) _]. split_and!; try done. apply cle_refl. Qed.
  Lemma winv_shallow L st hs hts D : winv L st hs hts D → shallow H (Sof L) D.
  Proof. intros [_ (_&?&_) _]. by apply proper_shallow. Qed.

  (** A branch of the new tree above a key of the batch is in no live tree. *)
  Lemma branch_fresh L st hs hts D M ks vs t : inj_on H (Sof L) → winv L st hs hts D → fresh_branches hs M ks vs →
    twf t → encs enc (updated M ks vs) (tmap t) →
    ∀ l r : trie n, subtrie (TNode l r) t → has_new (isnew enc (sort_keys ks) (value_map_of ks vs)) (TNode l r) →
      Forall (Sof L) (tpre H (TNode l r)) → D !! troot H (TNode l r) = None.
  Proof.
    intros Hinj Hi Hf Ht He l r Hsub (k & e & (_ & v & Hv & _) & Hk) Hpre.
    apply value_map_elem in Hv. apply eq_None_not_Some. intros Hs.
    destruct (winv_reached _ _ _ _ _ Hi _ Hs) as (o & t' & Ht' & Ho & Heq).
    pose proof (winv_pre _ _ _ _ _ Hi) as Hpres. rewrite Forall_forall in Hpres.
    change (troot H (TNode l r)) with (oloc H (OT (TNode l r))) in Heq.
    apply (oloc_inj H (Sof L) Hinj) in Heq; [|by eapply osub_pre; [|apply Hpres]|done]. subst o.
    apply elem_of_list_lookup in Ht' as [i Ht'].
    destruct (Forall2_lookup_r _ _ _ _ _ (winv_trees _ _ _ _ _ Hi) Ht') as ([r' M'] & Hh & (_ & Hwf & _ & Hen)).
    apply (Hf r' M'); [by eapply elem_of_list_lookup_2|].
    eapply (branch_regrows enc dec Hcodec t t' l r); try done.
    eapply subtrie_keys; [exact Hk|]. by left.
  Qed.

  (** The writes of an insertion into a tree stored in [D]. *)
  Theorem insert_ev L st hs D Dep prev M ks vs fl pr :
    inj_on H (Sof L) → Forall (handle_ok H enc L D) hs → cle D (b_vis B st) →
    prev_holds hs prev M → benign M ks → keeps H (Sof L) fl pr → Jp pr B (b_vis B st) st →
    (∀ t l r : trie n, twf t → encs enc (updated M ks vs) (tmap t) → subtrie (TNode l r) t →
       has_new (isnew enc (sort_keys ks) (value_map_of ks vs)) (TNode l r) →
       Forall (Sof L) (tpre H (TNode l r)) → fl (troot H (TNode l r)) ≤ 1) →
    wp B H (Sof L) (Jp pr B (b_vis B st)) (insert enc Dep prev ks vs)
      (λ r st', ∃ t P' piece, tree_of H enc L (r, updated M ks vs) t ∧ stored H (bview st') t ∧ pr (bview st') ∧
         rtc (ev H (Sof L) fl (isnew enc (sort_keys ks) (value_map_of ks vs)) piece (λ _ _, True))
           (bview st, bpend st, []) (bview st', P', [t]) ∧
         (∀ l r : trie n, piece l → piece r → ¬ subtrie (TNode l r) t) ∧ (∀ p, piece p → stored H D p) ∧
         (∀ p k, piece p → k ∈ ks → k ∉ tkeys p) ∧ (∀ k, k ∈ ks → k ∈ tkeys t) ∧
         length ks = length vs ∧ NoDup ks ∧ (∀ k v, (k, v) ∈ zip ks vs → ∃ e, enc v = Ok e ∧ subtrie (TLeaf k e) t) ∧
         b_vis B st' = bview st' ∧ bpend st' = [])
      (λ er st', length ks ≠ length vs ∨ ks = [] ∨ ¬ NoDup ks ∨ (∃ v, v ∈ vs ∧ enc v = Err er) ∨
          (er = "Depth of merkle tree exceeded" ∧ is_Some prev ∧ Dep < 8 * n)) st.
  Proof.
    intros Hinj HhD HcD Hp Hb Hkp HJ Hmay.
    unfold insert.
    destruct (Nat.eqb_spec (length ks) (length vs)) as [Hlen|Hlen]; [|simpl; auto]. simpl.
    destruct (Nat.eqb_spec (length ks) 0) as [Hz|Hne].
    { simpl. right. left. by apply length_zero_iff_nil. }
    destruct (Nat.eqb_spec (length vs) 0) as [|Hne']; [lia|]. simpl.
    destruct (prev_old H enc L _ hs prev M HhD Hp) as (old & -> & HokD & Hwf & He).
    assert (oldok H (Sof L) (b_vis B st) old) as Hok.
    { destruct old as [t0|]; [|done]. destruct HokD as (?&?&?). split_and!; try done.
      by eapply stored_mono. }
    assert (¬ hazard (has_key (omap old)) (sort_keys ks)) as Hhz.
    { apply benign_sort. by apply (encs_benign enc M (omap old) ks He). }
    pose proof (or_introl Hhz : mild (omap old) (sort_keys ks)) as Hmd.
    assert (sort_keys ks ≠ []) as Hsne.
    { intros Hnil. apply Hne. rewrite <- sort_keys_length, Hnil. done. }
    set (sk := sort_keys ks) in *. set (vm := value_map_of ks vs) in *.
    assert (∀ es ts t, Forall2 (λ k e, encg enc vm k = Some e) sk es → ts ≡ₚ new_tries sk es ++ olddec old sk →
      StronglySorted klt (tmin <$> ts) → tleaves t = mjoin (tleaves <$> ts) → twf t →
      NoDup ks ∧ encs enc (updated M ks vs) (tmap t) ∧ (∀ z, z ∈ sk → z ∈ tkeys t) ∧
      ∀ l r : trie n, l ∈ olddec old sk → r ∈ olddec old sk → ¬ subtrie (TNode l r) t) as Hres.
    { intros es ts t Hes Hts Hsort Hlv Ht.
      assert (length sk = length es) as Hle by (by eapply Forall2_length).
      pose proof (result_nodup sk es old Hle ts Hts Hsort) as Hnd.
      apply NoDup_app in Hnd as (Hnd & _ & _). unfold sk in Hnd. rewrite sort_keys_perm in Hnd.
      assert (tmap t = list_to_map (zip sk es) ∪ omap old) as Htm.
      { eapply result_map; eauto. apply sort_keys_sorted. }
      assert (∀ z, z ∈ sk → z ∈ tkeys t) as Hall.
      { intros z Hz. apply tmap_has. rewrite Htm.
        apply lookup_union_is_Some. left. apply not_eq_None_Some.
        rewrite <- not_elem_of_list_to_map, fst_zip by lia. auto. }
      split_and!; [done| |done|].
      - rewrite Htm. unfold updated. apply encs_union; [|done]. by apply encs_batch.
      - intros l r Hl Hr. eapply (no_join Hn old sk); try done. apply sort_keys_sorted. }
    eapply wp_mono; [| |apply (insert_sorted_wp_gen Hn H (Sof L) Hinj fl pr Hkp B enc Henc Dep sk
      vm old st HJ Hok (sort_keys_sorted ks) Hsne)].
    - intros r st' (es & m' & P' & t & ts & -> & Hes & Hpre & Hev & HG & Hvis & Hpend & Hts & Hsort & Hlv & Hgd & Hdep).
      assert (length sk = length es) as Hle by (by eapply Forall2_length).
      assert (twf t) as Ht.
      { apply Hgd. eapply result_good; eauto. apply sort_keys_sorted. }
      destruct (Hres es ts t Hes Hts Hsort Hlv Ht) as (Hnd & Hen & Hall & Hjoin).
      pose proof HG as (HJ' & Hv' & _ & Htok).
      apply Forall_cons in Htok as [(Hst & _ & Htpre) _]. cbn [fst snd] in *.
      exists t, P', (λ p, p ∈ olddec old sk). split_and!; try done.
      + by rewrite Hv'.
      + apply HJ'.
      + rewrite Hv'. clear -Hev. induction Hev as [|x y z Hxy _ IH]; [done|]. econstructor; [|done].
        eapply ev_dup; [|exact Hxy]. done.
      + intros u Hu. destruct old as [t0|]; [|by apply elem_of_nil in Hu].
        apply wdec_sub in Hu. eapply subtrie_stored; [exact Hu|]. apply HokD.
      + intros p k Hpk Hk Hin. apply elem_of_tkeys in Hin as [e Hin].
        destruct (proj1 (olddec_leaves Hn old sk k e Hwf (sort_keys_sorted ks) Hsne Hmd)) as [_ Hni]; [eauto|].
        apply Hni. by apply elem_of_sort_keys.
      + intros k Hk. apply Hall. by apply elem_of_sort_keys.
      + intros k v Hkv. assert (updated M ks vs !! k = Some v) as Hu.
        { unfold updated. apply lookup_union_Some_l. apply elem_of_list_to_map_1; [|done].
          rewrite fst_zip by lia. done. }
        pose proof (Hen k) as Hek. rewrite Hu in Hek. inversion Hek as [v' e Hev' Heq1 Heq2|]. subst v'.
        exists e. split; [done|]. apply leaf_subtrie. apply tmap_lookup; [done|]. by symmetry.
    - intros er st' (_ & Hc).
      destruct Hc as [(k & v & Hk & Hv & Herr)|[(-> & Hd)|(-> & Hnd)]].
      + right. right. right. left. exists v. split; [|done].
        apply value_map_elem in Hv. by apply elem_of_zip_r in Hv.
      + right. right. right. right. destruct old as [t|]; simpl in Hd; [|lia].
        split_and!; [done|by eexists|]. pose proof (wdep_depth t sk).
        pose proof (twf_depth t Hwf). lia.
      + right. right. left. intros Hnd'. apply Hnd. apply mild_nodup; try done.
        * apply sort_keys_sorted.
        * unfold sk. by rewrite sort_keys_perm.
    - intros k Hk. apply value_map_some; [done|done|]. by apply elem_of_sort_keys.
    - intros es ts Hes Hts Hsort x bs1 l r bs2 Hev Hperm Hbs Hlvs Hgood HSb.
      assert (length sk = length es) as Hle by (by eapply Forall2_length).
      assert (bgood ts) as Hbg by (eapply result_good; eauto; apply sort_keys_sorted).
      destruct (bgood_extend (bs1 ++ TNode l r :: bs2)) as (t & Ht & Hlv & Hsub).
      { by destruct bs1. }
      { clear -Hbs. rewrite !fmap_app in *. cbn in *.
        apply StronglySorted_app_inv in Hbs as (H1 & H2 & H12).
        apply StronglySorted_inv in H2 as [H2 F2]. apply StronglySorted_inv in H2 as [H2 F3].
        apply Forall_cons in F2 as [_ F2].
        apply StronglySorted_app_intro; [done|by constructor|].
        intros x y Hx Hy. apply H12; [done|].
        apply elem_of_cons in Hy as [->|Hy]; [left|by right; right]. }
      { by apply Hgood. }
      assert (tleaves t = mjoin (tleaves <$> bs1 ++ l :: r :: bs2)) as Hlv1.
      { rewrite Hlv, !fmap_app, !mjoin_app. cbn. by rewrite <- !app_assoc. }
      destruct (Hres es ts t Hes Hts Hsort ltac:(congruence) Ht) as (_ & Hen & _ & Hjoin).
      assert (subtrie (TNode l r) t) as Hlr by (apply Hsub, elem_of_app; right; by left).
      assert (toward t x) as Htw.
      { split.
        - intros u. rewrite Hperm, elem_of_app, !elem_of_cons. intros [Hu|[->|[->|Hu]]].
          + apply Hsub, elem_of_app. by left.
          + eapply subtrie_trans; [|exact Hlr]. apply sub_l. constructor.
          + eapply subtrie_trans; [|exact Hlr]. apply sub_r. constructor.
          + apply Hsub, elem_of_app. right. by right.
        - rewrite Hperm, mjoin_keys_leaves, <- Hlv1. by apply twf_nodup. }
      assert (made H (Sof L) (isnew enc sk vm) (λ p, p ∈ olddec old sk) x) as Hmade.
      { eapply (evs_made H (Sof L) _ _ _ t Hjoin); [exact Hev|done|]. by intros u ?%elem_of_nil. }
      destruct (Hmade l) as [Hml Hpl]; [rewrite Hperm; set_solver|].
      destruct (Hmade r) as [Hmr Hpr0]; [rewrite Hperm; set_solver|].
      assert (Forall (Sof L) (tpre H (TNode l r))) as Hpre.
      { cbn [tpre]. constructor; [done|by apply Forall_app]. }
      assert (has_new (isnew enc sk vm) (TNode l r)) as Hnew.
      { destruct Hml as [Hml|(k & e & ? & ?)]; [|exists k, e; split; [done|by apply sub_l]].
        destruct Hmr as [Hmr|(k & e & ? & ?)]; [|exists k, e; split; [done|by apply sub_r]].
        exfalso. exact (Hjoin l r Hml Hmr Hlr). }
      by apply (Hmay t).
  Qed.
  (** [fl] and [pr] may ask for more than the counts of [D]. *)
  Theorem insert_weak_gen L st hs hts D Dep prev M ks vs fl pr :
    inj_on H (Sof L) → winv L st hs hts D → prev_holds hs prev M → benign M ks → fresh_branches hs M ks vs →
    keeps H (Sof L) fl pr → (∀ m, pr m → wpr H (Sof L) D m) → (∀ l, nrefs D l ≤ fl l) →
    (∀ l r : trie n, branch_in (troot H l) (troot H r) ∈ L → D !! troot H (TNode l r) = None → fl (troot H (TNode l r)) ≤ 1) →
    pr (b_vis B st) → pr (bview st) →
    wp B H (Sof L) (Jp pr B (b_vis B st)) (insert enc Dep prev ks vs)
      (λ r st', ∃ t D' P' piece,
         winv L st' ((r, updated M ks vs) :: hs) (t :: hts) D' ∧ pr (bview st') ∧
         rtc (ev H (Sof L) fl (isnew enc (sort_keys ks) (value_map_of ks vs)) piece (λ _ _, True))
           (bview st, bpend st, []) (bview st', P', [t]) ∧
         (∀ p k, piece p → k ∈ ks → k ∉ tkeys p) ∧ (∀ k, k ∈ ks → k ∈ tkeys t) ∧
         length ks = length vs ∧ NoDup ks ∧
         b_vis B st' = bview st' ∧ bpend st' = [])
      (λ er st', length ks ≠ length vs ∨ ks = [] ∨ ¬ NoDup ks ∨ (∃ v, v ∈ vs ∧ enc v = Err er) ∨
          (er = "Depth of merkle tree exceeded" ∧ is_Some prev ∧ Dep < 8 * n)) st.
  Proof.
    intros Hinj Hi Hp Hb Hf Hkp Hpr Hfl Hflb Hpr1 Hpr2.
    destruct (winv_handles _ _ _ _ _ Hinj Hi) as [HhD Hh].
    pose proof (winv_counted _ _ _ _ _ Hi) as (HRC & HpD & [_ Hdv] & [_ Hdw] & _).
    eapply wp_mono; [| |apply (insert_ev L st hs D Dep prev M ks vs fl pr Hinj HhD (dom_cle _ _ Hdv) Hp Hb Hkp)].
    - intros r st' (t & P' & piece & Htr & Hst & Hpr' & Hev & Hjoin & Hpst & Hpk & Hkt & Hlen & Hnd & _ & Hvis & Hpend).
      pose proof Htr as (_ & Ht & Htpre & Hen). cbn [fst snd] in *.
      destruct (evs_replay H (Sof L) Hinj D (isnew enc (sort_keys ks) (value_map_of ks vs)) piece (λ _ _, True)
          (troot H <$> hts) t fl Hfl)
        with (x := (bview st, bpend st, @nil (trie n))) (y := (bview st', P', [t])) (mi := D) (Pi := @nil (arr n))
        as (D' & P'' & HR & Hdom & _); try done.
      + by eapply branch_fresh.
      + apply toward_final. by apply twf_nodup.
      + split_and!; simpl; [by apply rinv_start|done|done|intros; lia].
      + exists t, D', P', piece. cbn [fst snd] in *. split_and!; try done. constructor.
        * constructor; [done|apply Hi].
        * assert (wpr H (Sof L) D' (bview st')) as Hw by (split; [by apply Hpr|done]).
          split_and!; [| |by rewrite Hvis|done|rewrite Hvis; apply cle_refl].
          -- eapply RC_perm; [|apply HR]. cbn. by rewrite Permutation_app_comm.
          -- apply HR.
        * intros l Hl. destruct (rinv_dom _ _ _ _ _ _ _ _ HR l Hl) as [Hl'|Hl'].
          -- destruct (winv_reached _ _ _ _ _ Hi l Hl') as (o & t' & ?&?&?). exists o, t'. split_and!; try done. by right.
          -- destruct (rinv_written _ _ _ _ _ _ _ _ HR l Hl') as (o & u & Hu&?&?). simpl in Hu.
             apply elem_of_list_singleton in Hu as ->. exists o, t. split_and!; try done. by left.
    - done.
    - destruct (winv_J _ _ _ _ _ Hi) as (_&_&?&?). by split_and!.
    - intros t l r Ht He Hsub Hnew Hpre. apply Hflb; [by apply Forall_cons in Hpre as [? _]|]. by eapply branch_fresh.
  Qed.
  Theorem insert_weak L st hs hts D Dep prev M ks vs :
    inj_on H (Sof L) → winv L st hs hts D → prev_holds hs prev M → benign M ks → fresh_branches hs M ks vs →
    wp B H (Sof L) (Jp (wpr H (Sof L) D) B (b_vis B st)) (insert enc Dep prev ks vs)
      (λ r st', (∃ t D', winv L st' ((r, updated M ks vs) :: hs) (t :: hts) D') ∧
         b_vis B st' = bview st' ∧ bpend st' = [])
      (λ er st', length ks ≠ length vs ∨ ks = [] ∨ ¬ NoDup ks ∨ (∃ v, v ∈ vs ∧ enc v = Err er) ∨
          (er = "Depth of merkle tree exceeded" ∧ is_Some prev ∧ Dep < 8 * n)) st.
  Proof.
    intros Hinj Hi Hp Hb Hf.
    eapply wp_mono; [| |eapply (insert_weak_gen L st hs hts D Dep prev M ks vs (nrefs D)); try done].
    - intros r st' (t & D' & P' & piece & ? & _ & _ & _ & _ & _ & _ & ? & ?). eauto 10.
    - done.
    - apply wpr_keeps; [done|]. by eapply winv_shallow.
    - intros l r _ Hno. unfold nrefs. rewrite Hno. lia.
    - apply (winv_J _ _ _ _ _ Hi).
    - apply (winv_J _ _ _ _ _ Hi).
  Qed.

  (** ** Failing calls *)
  Lemma error_weak L st hs hts D c er : inj_on H (Sof L) → winv L st hs hts D →
    out B H (exec enc dec c) st = RErr er → (∀ x, x ∈ hlog B H (exec enc dec c) st → x ∈ L) →
    ∀ st', st' ∈ states B H (exec enc dec c) st → winv L st' hs hts D.
  Proof.
    intros Hinj Hi Hout Hlg st' Hst'.
    assert (∀ p : prog n unit, readonly p → st' ∈ states B H p st → winv L st' hs hts D) as Hro.
    { intros p Hp Hs'. by rewrite (readonly_states B H p st Hp st' Hs'). }
    assert (Jp (wpr H (Sof L) D) B ∅ st) as HJ.
    { destruct (winv_J _ _ _ _ _ Hi) as (?&?&?&?). split_and!; try done. }
    assert (∀ Dep prev ks vs, out B H (insert enc Dep prev ks vs ;; mret tt) st = RErr er →
      (∀ x, x ∈ hlog B H (insert enc Dep prev ks vs ;; mret tt) st → x ∈ L) →
      st' ∈ states B H (insert enc Dep prev ks vs ;; mret tt) st → winv L st' hs hts D) as Hins.
    { intros Dep prev ks vs Ho Hl Hs.
      assert (out B H (insert enc Dep prev ks vs) st = RErr er) as Ho'.
      { revert Ho. unfold out. rewrite run_bind.
        destruct (run B H (insert enc Dep prev ks vs) st) as [[[a|e| |] s'] lg']; simpl; intros Ho; by simplify_eq. }
      rewrite (proj2 (run_drop_result B H _ st)) in Hl.
      pose proof (insert_fail H (Sof L) Hinj B D (winv_shallow _ _ _ _ _ Hi) enc Dep prev ks vs st HJ er Ho' Hl) as Hf.
      rewrite Forall_forall in Hf. eapply winv_step; [done|]. apply Hf.
      clear -Hs Ho'. revert Hs. unfold out in Ho'. 
      generalize dependent st. generalize (insert enc Dep prev ks vs). intros p.
      induction p as [a|e| | |cs k IH|l k IH|l nd k IH|l k IH|k IH]; intros s; cbn; try done.
      - destruct (run B H (k (H cs)) s) as [[o s'] log] eqn:Hr. cbn. intros ->.
        rewrite !elem_of_cons. intros [->|Hs]; [by left|right]. apply IH; [by rewrite Hr|done].
      - intros Ho. rewrite !elem_of_cons. intros [->|Hs]; [by left|right]. by apply IH.
      - intros Ho. rewrite !elem_of_cons. intros [->|Hs]; [by left|right]. by apply IH.
      - intros Ho. rewrite !elem_of_cons. intros [->|Hs]; [by left|right]. by apply IH.
      - intros Ho. rewrite !elem_of_cons. intros [->|Hs]; [by left|right]. by apply IH. }
    destruct c as [Dep prev ks vs|Dep prev k v|Dep root ks|Dep root k|Dep root k|root k v proof]; cbn [exec] in *.
    - by eapply Hins.
    - rewrite insert_one_insert in *. by eapply Hins.
    - eapply Hro; [|exact Hst']. apply readonly_bind; [apply readonly_get|done].
    - eapply Hro; [|exact Hst']. apply readonly_bind; [apply readonly_get_one|done].
    - eapply Hro; [|exact Hst']. apply readonly_bind; [apply readonly_prove|done].
    - eapply Hro; [|exact Hst']. apply readonly_verify.
  Qed.

  (** ** Calls that spare the live trees *)
  Lemma stored_below m t o : stored H m t → osub o t → rtc (child m) (troot H t) (oloc H o).
  Proof using.
    clear Henc Hcodec Hn dec enc V.
    intros Hst.
    assert (∀ p, subtrie p t → rtc (child m) (troot H t) (troot H p)) as Hsub.
    { intros p Hp. revert Hst. induction Hp as [t|p l r Hp IH|p l r Hp IH]; cbn [stored]; [done| |];
        intros (Hh & Hl & Hr); (eapply rtc_l; [|by apply IH]); unfold has in Hh;
        destruct (m !! troot H (TNode l r)) as [nd|] eqn:Hnd; cbn in Hh; simplify_eq;
        exists nd; (split; [done|]); rewrite Hh; cbn; set_solver. }
    destruct o as [p|k e]; [apply Hsub|]. cbn [osub oloc]. intros Hp.
    eapply rtc_r; [by apply Hsub|]. eapply subtrie_stored in Hst; [|exact Hp]. destruct Hst as [Hh _].
    unfold has in Hh. cbn [troot]. destruct (m !! lloc H k e) as [nd|] eqn:Hnd; cbn in Hh; simplify_eq.
    exists nd. split; [done|]. rewrite Hh. cbn. by left.
  Qed.
  Lemma any_weak L st hs hts D c : inj_on H (Sof L) → winv L st hs hts D → spares B H enc dec st hs c →
    (∀ x, x ∈ hlog B H (exec enc dec c) st → x ∈ L) →
    ∀ st', st' ∈ states B H (exec enc dec c) st → winv L st' hs hts D.
  Proof.
    intros Hinj Hi Hsp Hlg st' Hst'.
    assert (∀ p : prog n unit, readonly p → st' ∈ states B H p st → winv L st' hs hts D) as Hro.
    { intros p Hp Hs'. by rewrite (readonly_states B H p st Hp st' Hs'). }
    assert (Jp (wpr H (Sof L) D) B ∅ st) as HJ.
    { destruct (winv_J _ _ _ _ _ Hi) as (?&?&?&?). split_and!; try done. }
    assert (∀ Dep prev ks vs, exec enc dec c = (insert enc Dep prev ks vs ;; mret tt) → winv L st' hs hts D) as Hins.
    { intros Dep prev ks vs Hx.
      assert (Jp (wpr H (Sof L) D) B ∅ st') as HJ'; [|by eapply winv_step].
      set (T := λ x, x ∈ hlog B H (exec enc dec c) st).
      assert (Forall (Jp (wpr H (Sof L) D) B ∅) (states B H (exec enc dec c) st)) as Hall.
      2:{ rewrite Forall_forall in Hall. by apply Hall. }
      eapply (swp_states B H T _ _ (λ _ _, True)); [done| |done]. rewrite Hx. apply swp_bind.
      eapply swp_mono; [|apply (insert_any Hn H (Sof L) Hinj B D (winv_shallow _ _ _ _ _ Hi) enc Dep T Hlg); [|exact HJ]].
      { done. }
      intros z o HT. unfold nrefs. destruct (D !! H (branch_in z o)) as [nd|] eqn:Hnd; [|lia].
      destruct (winv_reached _ _ _ _ _ Hi _ (mk_is_Some _ _ Hnd)) as (ob & t & Ht & Hob & Hloc).
      pose proof (winv_counted _ _ _ _ _ Hi) as (_ & _ & [_ Hdom] & _).
      destruct (Hdom _ _ Hnd) as (nd' & Hnd' & _ & Hle).
      apply elem_of_list_lookup in Ht as [i Ht].
      destruct (Forall2_lookup_r _ _ _ _ _ (winv_trees _ _ _ _ _ Hi) Ht) as ([r M] & Hh & Htr).
      apply elem_of_list_lookup_2 in Hh.
      destruct (winv_handles _ _ _ _ _ Hinj Hi) as [_ Hf]. rewrite Forall_forall in Hf.
      destruct (Hf _ Hh) as (t' & Hr' & _ & Hst & Hpre' & _). destruct Htr as (Hr & _ & Hpre & _). cbn [fst] in *.
      assert (t' = t) as ->. { eapply (troot_inj H (Sof L) Hinj); [exact Hpre'|exact Hpre|]. by rewrite <- Hr'. }
      etrans; [exact Hle|]. eapply (Hsp z o HT r M Hh); [|exact Hnd'].
      rewrite Hr, <- Hloc. by apply stored_below. }
    destruct c as [Dep prev ks vs|Dep prev k v|Dep root ks|Dep root k|Dep root k|root k v proof]; cbn [exec] in *.
    - by eapply Hins.
    - rewrite insert_one_insert in Hins. by eapply Hins.
    - eapply Hro; [|exact Hst']. apply readonly_bind; [apply readonly_get|done].
    - eapply Hro; [|exact Hst']. apply readonly_bind; [apply readonly_get_one|done].
    - eapply Hro; [|exact Hst']. apply readonly_bind; [apply readonly_prove|done].
    - eapply Hro; [|exact Hst']. apply readonly_verify.
  Qed.

  (** ** Removal *)
  Lemma winv_gc L st hs hts D : inj_on H (Sof L) → Forall2 (tree_of H enc L) hs hts →
    counted H (Sof L) B (troot H <$> hts) st D → ∃ D', winv L st hs hts D'.
  Proof.
    intros Hinj Ht (HR & Hp & [Hs1 Hd1] & [Hs2 Hd2] & Hc).
    destruct (gc_ok H (Sof L) Hinj hts D) as (HR' & Hp' & Hre & Hd); try done.
    { clear -Ht. induction Ht as [|h t hs hts Hht _ IH]; constructor; [apply Hht|done]. }
    exists (gc H hts D). constructor; [done| |done]. split_and!; try done.
    - split; [done|]. by eapply dom_sub.
    - split; [done|]. by eapply dom_sub.
  Qed.
  Lemma winv_drop L st hs hts D : winv L st hs hts D → winv L (b_drop B st) hs hts D.
  Proof. intros [? ? ?]. constructor; try done. by apply counted_drop. Qed.
  Lemma remove_states L st r M hs hts D : inj_on H (Sof L) → winv L st ((r, M) :: hs) hts D →
    ∃ hts', ∀ st', st' ∈ states B H (remove_prog B st r) st → ∃ D', winv L st' hs hts' D'.
  Proof.
    intros Hinj Hi. pose proof (winv_trees _ _ _ _ _ Hi) as Ht.
    inversion Ht as [|? t ? hts' Htr Ht']; subst. exists hts'.
    pose proof Htr as (Hr & Hwf & Hpre & _). simpl in Hr. subst r.
    assert (counted H (Sof L) B ((troot H <$> hts') ++ [troot H t]) st D) as HC.
    { destruct Hi as [_ (HR & Hrest) _]. split; [|done]. eapply RC_perm; [|exact HR].
      cbn. by rewrite Permutation_app_comm. }
    pose proof (remove_weak H (Sof L) Hinj B (fmap (M := list) (troot H) hts') t st D (λ _ _, False) HC Hpre (twf_nodup t Hwf)) as Hw.
    apply wp_states in Hw.
    - intros st' Hst'. rewrite Forall_forall in Hw. destruct (Hw st' Hst') as [D1 HC1].
      by eapply winv_gc.
    - exists D. by eapply counted_less.
    - unfold remove_prog, remove. rewrite remove_no_hash. by intros x ?%elem_of_nil.
  Qed.

  Theorem whist_inv L st lg hs : inj_on H (Sof L) → whist B H enc dec st lg hs →
    (∀ x, x ∈ lg → x ∈ L) → ∃ hts D, winv L st hs hts D.
  Proof.
    intros Hinj Hh.
    induction Hh as [|st lg hs Dep prev M ks vs r Hh IH Hp Hb Hf Hout|st lg hs Dep prev M ks vs st' Hh IH Hp Hb Hf Hst
      |st lg hs r M hs' st' Hh IH Hp Hst|st lg hs c er st' Hh IH Hout Hst|st lg hs c Hh IH Hsame
      |st lg hs c st' Hh IH Hst Hvis|st lg hs Hh IH|st lg hs c st' Hh IH Hsp Hst]; intros Hlg.
    - exists [], ∅. constructor; [done| |by intros l [? ?]].
      split_and!; rewrite ?bvis_init, ?bview_init; try done.
      + split_and!; [by intros l nd ?|by intros x ?%elem_of_nil|by intros l nd ?].
    - destruct IH as (hts & D & Hi); [intros; apply Hlg, elem_of_app; by left|].
      pose proof (insert_weak L st hs hts D Dep prev M ks vs Hinj Hi Hp Hb Hf) as Hw.
      apply wp_run in Hw; [|intros; apply Hlg, elem_of_app; by right].
      rewrite Hout in Hw. destruct Hw as [(t & D' & Hi') _]. eauto.
    - destruct IH as (hts & D & Hi); [intros; apply Hlg, elem_of_app; by left|].
      pose proof (insert_weak L st hs hts D Dep prev M ks vs Hinj Hi Hp Hb Hf) as Hw.
      apply wp_states in Hw; [|by eapply winv_J|intros; apply Hlg, elem_of_app; by right].
      rewrite Forall_forall in Hw. exists hts, D. eapply winv_step; [done|by apply Hw].
    - destruct (IH Hlg) as (hts & D & Hi).
      destruct (trees_perm H enc L hs hts _ Hp (winv_trees _ _ _ _ _ Hi)) as (hts1 & Hp1 & Ht1).
      assert (winv L st ((r, M) :: hs') hts1 D) as Hi1.
      { destruct Hi as [_ (HR & Hrest) Hre]. constructor; [done| |].
        - split; [|done]. eapply RC_perm; [|exact HR]. by rewrite Hp1.
        - intros l Hl. destruct (Hre l Hl) as (o & t & Htt & ?). exists o, t. by rewrite <- Hp1. }
      destruct (remove_states L st r M hs' hts1 D Hinj Hi1) as (hts' & Hs).
      destruct (Hs st' Hst) as [D' Hi']. eauto.
    - destruct IH as (hts & D & Hi); [intros; apply Hlg, elem_of_app; by left|].
      exists hts, D. eapply error_weak; try done. intros; apply Hlg, elem_of_app; by right.
    - apply IH. intros; apply Hlg, elem_of_app; by left.
    - destruct IH as (hts & D & Hi); [intros; apply Hlg, elem_of_app; by left|]. exists hts, D.
      destruct Hi as [? (?&?&?&_&_) ?]. constructor; try done.
      split_and!; rewrite ?bvis_drop, ?bview_drop, ?Hvis; try done. apply cle_refl.
    - destruct (IH Hlg) as (hts & D & Hi). exists hts, D. by apply winv_drop.
    - destruct IH as (hts & D & Hi); [intros; apply Hlg, elem_of_app; by left|].
      exists hts, D. eapply any_weak; try done. intros; apply Hlg, elem_of_app; by right.
  Qed.
  Lemma whist_handle st lg hs h : whist B H enc dec st lg hs → no_collision H lg → h ∈ hs →
    handle_ok H enc lg (b_vis B st) h.
  Proof.
    intros Hh Hc Hin. destruct (whist_inv lg st lg hs Hc Hh ltac:(done)) as (hts & D & Hi).
    destruct (winv_handles _ _ _ _ _ Hc Hi) as [_ Hf]. rewrite Forall_forall in Hf. by apply Hf.
  Qed.
  (** Every history of [rhist] is one. *)
  Theorem rhist_whist st lg hs : rhist B H enc dec st lg hs → whist B H enc dec st lg hs.
  Proof using.
    induction 1 as [|st lg hs Dep prev M ks vs r Hh IH Hp Hb Hf Hout|st lg hs r M hs' Hh IH Hp
      |st lg hs c Hh IH Hsame|st lg hs c st' Hh IH Hst Hvis].
    - constructor.
    - eapply whist_insert; try done. by apply fresh_pairs_branches.
    - eapply whist_remove; [done|done|]. apply run_in_states.
    - by apply whist_same.
    - by eapply whist_lost.
  Qed.

  (** C51 *)
  Theorem weak_serves st lg hs r M : whist B H enc dec st lg hs → no_collision H lg → (r, M) ∈ hs →
    serves B H enc dec st r M.
  Proof.
    intros Hh Hc Hin. eapply (handle_serves Hn B H enc dec Hcodec). by eapply whist_handle.
  Qed.
  Theorem weak_insert_total st lg hs Dep prev M ks vs : whist B H enc dec st lg hs →
    no_collision H (lg ++ hlog B H (insert enc Dep prev ks vs) st) →
    prev_holds hs prev M → benign M ks → fresh_branches hs M ks vs →
    length ks = length vs → ks ≠ [] → NoDup ks → (∀ v, v ∈ vs → ∃ e, enc v = Ok e) →
    (prev = None ∨ 8 * n ≤ Dep) →
    ∃ r, out B H (insert enc Dep prev ks vs) st = ROk r ∧
      whist B H enc dec (fin B H (insert enc Dep prev ks vs) st) (lg ++ hlog B H (insert enc Dep prev ks vs) st)
        ((r, updated M ks vs) :: hs).
  Proof.
    intros Hh Hc Hp Hb Hf Hlen Hne Hnd Hen HD.
    destruct (whist_inv (lg ++ hlog B H (insert enc Dep prev ks vs) st) st lg hs Hc Hh) as (hts & Dd & Hi);
      [intros; apply elem_of_app; by left|].
    pose proof (insert_weak _ st hs hts Dd Dep prev M ks vs Hc Hi Hp Hb Hf) as Hw.
    apply wp_run in Hw; [|intros; apply elem_of_app; by right].
    destruct (out B H (insert enc Dep prev ks vs) st) as [r|er| |] eqn:Ho; try done.
    - exists r. split; [done|]. by apply whist_insert.
    - exfalso. destruct Hw as [?|[?|[?|[(v & Hv & Her)|(_ & [x ->] & ?)]]]]; try done.
      + destruct (Hen v Hv) as [e ?]. congruence.
      + destruct HD as [?|?]; [done|]. lia.
  Qed.
  (** Handles serve at every point of a call that fails or inserts. *)
  Theorem weak_calls st lg hs c st' r M : whist B H enc dec st lg hs →
    no_collision H (lg ++ hlog B H (exec enc dec c) st) →
    (∃ er, out B H (exec enc dec c) st = RErr er) → st' ∈ states B H (exec enc dec c) st → (r, M) ∈ hs →
    serves B H enc dec st' r M ∧ serves B H enc dec (b_drop B st') r M.
  Proof.
    intros Hh Hc [er Ho] Hst Hin.
    pose proof (whist_error B H enc dec st lg hs c er st' Hh Ho Hst) as Hh'.
    split; (eapply weak_serves; [|exact Hc|exact Hin]); [done|by apply whist_restart].
  Qed.
  (** C67: any call that spares the live handles. *)
  Theorem weak_any st lg hs c st' r M : whist B H enc dec st lg hs →
    no_collision H (lg ++ hlog B H (exec enc dec c) st) → spares B H enc dec st hs c →
    st' ∈ states B H (exec enc dec c) st → (r, M) ∈ hs →
    serves B H enc dec st' r M ∧ serves B H enc dec (b_drop B st') r M.
  Proof.
    intros Hh Hc Hs Hst Hin.
    pose proof (whist_any B H enc dec st lg hs c st' Hh Hs Hst) as Hh'.
    split; (eapply weak_serves; [|exact Hc|exact Hin]); [done|by apply whist_restart].
  Qed.
  Theorem weak_any_remove st lg hs c st' r M hs' : whist B H enc dec st lg hs →
    no_collision H (lg ++ hlog B H (exec enc dec c) st) → spares B H enc dec st hs c →
    st' ∈ states B H (exec enc dec c) st → hs ≡ₚ (r, M) :: hs' →
    ∀ st'' r' M', st'' ∈ states B H (remove_prog B st' r) st' → (r', M') ∈ hs' →
      serves B H enc dec st'' r' M' ∧ serves B H enc dec (b_drop B st'') r' M'.
  Proof.
    intros Hh Hc Hs Hst Hp st'' r' M' Hst' Hin.
    pose proof (whist_any B H enc dec st lg hs c st' Hh Hs Hst) as Hh1.
    pose proof (whist_remove B H enc dec st' _ hs r M hs' st'' Hh1 Hp Hst') as Hh2.
    split; (eapply weak_serves; [|exact Hc|exact Hin]); [done|by apply whist_restart].
  Qed.
  Theorem spares_new st hs c :
    (∀ z o : arr n, branch_in z o ∈ hlog B H (exec enc dec c) st → b_vis B st !! H (branch_in z o) = None) →
    spares B H enc dec st hs c.
  Proof using. intros Hf z o Hzo r M _ _ nd Hnd. by rewrite (Hf z o Hzo) in Hnd. Qed.
  Theorem spares_once st hs c :
    (∀ x nd, b_vis B st !! x = Some nd → refs nd ≤ 1) → spares B H enc dec st hs c.
  Proof using. intros Hf z o _ r M _ _ nd Hnd. by eapply Hf. Qed.
  Theorem weak_during st lg hs Dep prev M ks vs st' r M' : whist B H enc dec st lg hs →
    no_collision H (lg ++ hlog B H (insert enc Dep prev ks vs) st) →
    prev_holds hs prev M → benign M ks → fresh_branches hs M ks vs →
    st' ∈ states B H (insert enc Dep prev ks vs) st → (r, M') ∈ hs →
    serves B H enc dec st' r M' ∧ serves B H enc dec (b_drop B st') r M'.
  Proof.
    intros Hh Hc Hp Hb Hf Hst Hin.
    pose proof (whist_cut B H enc dec st lg hs Dep prev M ks vs st' Hh Hp Hb Hf Hst) as Hh'.
    split; (eapply weak_serves; [|exact Hc|exact Hin]); [done|by apply whist_restart].
  Qed.
  Theorem weak_remove st lg hs r M hs' : whist B H enc dec st lg hs → no_collision H lg → hs ≡ₚ (r, M) :: hs' →
    out B H (remove_prog B st r) st = ROk tt ∧
    ∀ st' r' M', st' ∈ states B H (remove_prog B st r) st → (r', M') ∈ hs' →
      serves B H enc dec st' r' M' ∧ serves B H enc dec (b_drop B st') r' M'.
  Proof.
    intros Hh Hc Hp. split; [apply (remove_total B H st r)|]. intros st' r' M' Hst Hin.
    pose proof (whist_remove B H enc dec st lg hs r M hs' st' Hh Hp Hst) as Hh'.
    split; (eapply weak_serves; [|exact Hc|exact Hin]); [done|by apply whist_restart].
  Qed.

  (** A database failure during an insertion or a removal. *)
  Theorem fault_insert st lg hs Dep prev M ks vs i : whist B H enc dec st lg hs →
    prev_holds hs prev M → benign M ks → fresh_branches hs M ks vs →
    whist B H enc dec (run_fault B H i (insert enc Dep prev ks vs) st).2
      (lg ++ hlog B H (insert enc Dep prev ks vs) st) hs.
  Proof using.
    intros Hh Hp Hb Hf.
    destruct (run_fault_states B H i (insert enc Dep prev ks vs) st) as [Hin|(s' & Hin & ->)].
    - by eapply whist_cut.
    - apply whist_restart. by eapply whist_cut.
  Qed.
  Theorem fault_remove st lg hs r M hs' i : whist B H enc dec st lg hs → hs ≡ₚ (r, M) :: hs' →
    whist B H enc dec (run_fault B H i (remove_prog B st r) st).2 lg hs'.
  Proof using.
    intros Hh Hp. destruct (run_fault_states B H i (remove_prog B st r) st) as [Hin|(s' & Hin & ->)].
    - by eapply whist_remove.
    - apply whist_restart. by eapply whist_remove.
  Qed.
End Weak.

(** The root of a set of pairs does not depend on the failures before. *)
Theorem weak_root {n} (Hn : 0 < n) (B1 B2 : backend n) {HB1 : BackendOk B1} {HB2 : BackendOk B2}
    (H : list bytes → arr n) {V} (enc : V → res bytes) (dec : bytes → res V) :
  codec_ok enc dec → ∀ st1 lg1 hs1 st2 lg2 hs2 r1 r2 M1 M2,
  whist B1 H enc dec st1 lg1 hs1 → whist B2 H enc dec st2 lg2 hs2 ∨ hist B2 H enc dec st2 lg2 hs2 →
  no_collision H (lg1 ++ lg2) → (r1, M1) ∈ hs1 → (r2, M2) ∈ hs2 → r1 = r2 ↔ M1 = M2.
Proof.
  intros Hcodec st1 lg1 hs1 st2 lg2 hs2 r1 r2 M1 M2 Hh1 Hh2 Hc Hr1 Hr2.
  assert (no_collision H lg1) as Hc1 by (by eapply no_collision_app_l).
  assert (no_collision H lg2) as Hc2
    by (eapply no_collision_sub; [|exact Hc]; intros x ?; apply elem_of_app; by right).
  destruct (whist_handle Hn B1 H enc dec Hcodec _ _ _ _ Hh1 Hc1 Hr1) as (t1 & Ht1 & Hw1 & _ & Hp1 & He1).
  assert (handle_ok H enc lg2 (b_vis B2 st2) (r2, M2)) as (t2 & Ht2 & Hw2 & _ & Hp2 & He2).
  { destruct Hh2 as [Hh2|Hh2].
    - by apply (whist_handle Hn B2 H enc dec Hcodec _ _ _ _ Hh2 Hc2).
    - by apply (hist_handle Hn B2 H enc dec Hcodec _ _ _ _ _ Hh2 Hc2). }
  simpl in *. split.
  - intros Heq. assert (t1 = t2) as ->; [|by eapply encs_inj].
    eapply (troot_inj H (λ x, x ∈ lg1 ++ lg2)); [exact Hc| | |congruence].
    + eapply Forall_impl; [exact Hp1|]. intros x ?. apply elem_of_app. by left.
    + eapply Forall_impl; [exact Hp2|]. intros x ?. apply elem_of_app. by right.
  - intros ->. subst r1 r2. f_equal. apply twf_map_inj; [done|done|]. by eapply encs_fun.
Qed.

(** An insertion hit by a database failure can be repeated. *)
Theorem retry {n} (Hn : 0 < n) (B : backend n) {HB : BackendOk B}
    (H : list bytes → arr n) {V} (enc : V → res bytes) (dec : bytes → res V) :
  codec_ok enc dec → ∀ st lg hs Dep prev M ks vs i,
  whist B H enc dec st lg hs → prev_holds hs prev M → benign M ks → fresh_branches hs M ks vs →
  length ks = length vs → ks ≠ [] → NoDup ks → (∀ v, v ∈ vs → ∃ e, enc v = Ok e) →
  (prev = None ∨ 8 * n ≤ Dep) →
  let st1 := (run_fault B H i (insert enc Dep prev ks vs) st).2 in
  let st2 := fin B H (insert enc Dep prev ks vs) st1 in
  no_collision H ((lg ++ hlog B H (insert enc Dep prev ks vs) st) ++ hlog B H (insert enc Dep prev ks vs) st1) →
  ∃ r, out B H (insert enc Dep prev ks vs) st = ROk r ∧ out B H (insert enc Dep prev ks vs) st1 = ROk r ∧
    ∀ r' M', (r', M') ∈ (r, updated M ks vs) :: hs → serves B H enc dec st2 r' M'.
Proof.
  intros Hcodec st lg hs Dep prev M ks vs i Hh Hp Hb Hf Hlen Hne Hnd Hen HD st1 st2 Hc.
  assert (no_collision H (lg ++ hlog B H (insert enc Dep prev ks vs) st)) as Hc1 by (by eapply no_collision_app_l).
  destruct (weak_insert_total Hn B H enc dec Hcodec st lg hs Dep prev M ks vs) as (r & Ho & Hh1); try done.
  pose proof (fault_insert B H enc dec st lg hs Dep prev M ks vs i Hh Hp Hb Hf) as Hhf. fold st1 in Hhf.
  destruct (weak_insert_total Hn B H enc dec Hcodec st1 _ hs Dep prev M ks vs Hhf) as (r' & Ho' & Hh2); try done.
  assert (r = r') as <-.
  { eapply (weak_root Hn B B H enc dec Hcodec); [exact Hh1|left; exact Hh2| |by left|by left|done].
    eapply no_collision_sub; [|exact Hc]. intros x. rewrite !elem_of_app. tauto. }
  exists r. split_and!; try done. intros r1 M1 Hin. eapply (weak_serves Hn B H enc dec Hcodec); [exact Hh2|done|done].
Qed.
