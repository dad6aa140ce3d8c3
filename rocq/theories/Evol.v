(** * The writes of an insertion as abstract steps, and the merge phase *)
From Coq Require Import Strings.Byte NArith.
From stdpp Require Import prelude countable gmap sorting strings.
From Verif Require Import Model Bits Util Trie Store Logic Build.

Local Open Scope nat_scope.

Definition nrefs {n} (m : db n) (l : arr n) : nat :=
  match m !! l with Some nd => refs nd | None => 0 end.

(** A condition on databases that the writes of an insertion keep: counts at
    least [fl], and contents that do not change. *)
Record keeps {n} (H : list bytes → arr n) (S : list bytes → Prop) (fl : arr n → nat) (pr : db n → Prop) : Prop := {
  keeps_put m o nd : pr m → opre_ok H S o → opwf o → var nd = ovar H o → obelow H m o →
    fl (oloc H o) ≤ refs nd → pr (<[oloc H o := nd]> m);
  keeps_cle m o nd : pr m → opre_ok H S o → var nd = ovar H o → cle m (<[oloc H o := nd]> m);
  keeps_fl m l : pr m → fl l ≤ nrefs m l;
}.
Notation no_floor := (λ _ : arr _, 0).
Lemma proper_keeps {n} (H : list bytes → arr n) S : inj_on H S → keeps H S no_floor (proper H S).
Proof.
  intros Hinj. constructor.
  - intros m o nd ? ? ? ? ? _. by apply proper_put.
  - intros m o nd ???. by eapply proper_put_cle.
  - intros. lia.
Qed.

(** What merging neighbours with the greatest split bit preserves; [merged ts t]:
    whatever holds of [ts] and is preserved holds of the result [t]. *)
Definition mclosed {n} (I : list (trie n) → Prop) : Prop :=
  ∀ ts1 l r ts2, StronglySorted klt (tmin <$> (ts1 ++ l :: r :: ts2)) →
    (∀ p, last ts1 = Some p → tsplit p l ≤ tsplit l r) →
    (∀ q, head ts2 = Some q → tsplit r q ≤ tsplit l r) →
    I (ts1 ++ l :: r :: ts2) → I (ts1 ++ TNode l r :: ts2).
Definition merged {n} (ts : list (trie n)) (t : trie n) : Prop := ∀ I, mclosed I → I ts → I [t].
Lemma bgood_closed {n} : mclosed (bgood (n := n)).
Proof. intros ts1 l r ts2. apply bgood_merge. Qed.
Lemma merged_good {n} (ts : list (trie n)) t : merged ts t → bgood ts → twf t.
Proof. intros Hm Hg. by destruct (Hm _ bgood_closed Hg). Qed.

Section Evol.
  Context {n : nat} (Hn : 0 < n) (H : list bytes → arr n).
  Context (S : list bytes → Prop) (Hinj : inj_on H S).
  Implicit Types (t l r : trie n) (m : db n) (P : list (arr n)) (ts : list (trie n)) (k : arr n) (e : bytes).

  (** Abstract state: what the database will contain, the locations written so
      far, and the tries the call currently holds a reference to. *)
  Definition ist : Type := db n * list (arr n) * list (trie n).

  (** The count written is one more than the current one, unless the location
      was already written by this call (a backend may then read a stale count);
      it is above [fl], a lower bound of the counts before the call. *)
  Context (fl : arr n → nat).
  Definition bumped m P (l : arr n) (rf : nat) : Prop := (l ∉ P → rf = nrefs m l + 1) ∧ fl l < rf.

  (** [isnew]: the leaves this call creates; [piece]: the subtries it reuses;
      [dup]: the leaves it meets in the tree it updates. *)
  Context (isnew : arr n → bytes → Prop) (piece : trie n → Prop) (dup : arr n → bytes → Prop).

  Inductive ev : ist → ist → Prop :=
  | ev_leaf m P ts k e rd rl :
      isnew k e →
      S (data_in k e) → S (leaf_in k (dloc H k e)) →
      bumped m P (dloc H k e) rd → bumped m P (lloc H k e) rl →
      ev (m, P, ts)
         (<[lloc H k e := Node rl (VLeaf k (dloc H k e))]> (<[dloc H k e := Node rd (VData e)]> m),
          lloc H k e :: dloc H k e :: P, TLeaf k e :: ts)
  | ev_piece m P ts t rf :
      piece t →
      stored H m t → tpwf t → Forall S (tpre H t) → bumped m P (troot H t) rf →
      ev (m, P, ts) (<[troot H t := Node rf (tvar H t)]> m, troot H t :: P, t :: ts)
  | ev_again m P ts k e rf :
      isnew k e → dup k e →
      stored H m (TLeaf k e) → Forall S (tpre H (TLeaf k e)) → lloc H k e ∈ P →
      bumped m P (lloc H k e) rf →
      ev (m, P, ts) (<[lloc H k e := Node rf (VLeaf k (dloc H k e))]> m, lloc H k e :: P, ts)
  | ev_merge m P ts l r ts' :
      ts ≡ₚ l :: r :: ts' → klt (tmin l) (tmin r) → S (branch_in (troot H l) (troot H r)) →
      ev (m, P, ts)
         (<[troot H (TNode l r) := Node 1 (tvar H (TNode l r))]> m,
          troot H (TNode l r) :: P, TNode l r :: ts').

  Definition tok m t : Prop := stored H m t ∧ tpwf t ∧ Forall S (tpre H t).

  Lemma tok_mono m m' t : cle m m' → tok m t → tok m' t.
  Proof. intros Hc (?&?&?). split_and!; [by eapply stored_mono|done|done]. Qed.
  Lemma toks_mono m m' ts : cle m m' → Forall (tok m) ts → Forall (tok m') ts.
  Proof. intros Hc Hf. eapply Forall_impl; [done|]. intros t. by apply tok_mono. Qed.

  (** ** Concrete states *)
  Context (pr : db n → Prop) (Hkp : keeps H S fl pr) (B : backend n) {HB : BackendOk B} (m0 : db n).
  Definition Jp (s : b_st B) : Prop :=
    pr (b_vis B s) ∧ pr (bview s) ∧ cle (b_vis B s) (bview s) ∧ cle m0 (b_vis B s).
  Notation J := Jp.
  Definition G (s : b_st B) (x : ist) : Prop :=
    J s ∧ bview s = x.1.1 ∧ (∀ lc : arr n, lc ∈ bpend s → lc ∈ x.1.2) ∧ Forall (tok x.1.1) x.2.

  Lemma G_J s x : G s x → J s.
  Proof. by intros (?&_). Qed.

  Lemma G_put s m P ts o nd : G s (m, P, ts) →
    opre_ok H S o → opwf o → var nd = ovar H o → obelow H m o → fl (oloc H o) ≤ refs nd →
    G (b_put B s (oloc H o) nd) (<[oloc H o := nd]> m, oloc H o :: P, ts) ∧
    cle m (<[oloc H o := nd]> m).
  Proof using Hkp.
    intros ((Hp1 & Hp2 & Hc1 & Hc2) & Hv & Hpd & Hts) Ho Hw Hvar Hb Hfl. simpl in *.
    rewrite Hv in *. subst m.
    assert (cle (bview s) (<[oloc H o:=nd]> (bview s))) as Hcle by (by eapply (keeps_cle H S fl pr Hkp)).
    assert (bview (b_put B s (oloc H o) nd) = <[oloc H o:=nd]> (bview s)) as Hv' by apply bview_put.
    assert (pr (<[oloc H o:=nd]> (bview s))) as Hp' by (by apply (keeps_put H S fl pr Hkp)).
    split; [|done]. split; [|split_and!].
    - unfold J. destruct (bvis_put s (oloc H o) nd) as [->| ->]; rewrite Hv'.
      + split_and!; try done. by eapply cle_trans.
      + split_and!; try done; [apply cle_refl|]. eapply cle_trans; [exact Hc2|]. by eapply cle_trans.
    - done.
    - intros l [->|Hl]%bpend_put; simpl; [by left|right; auto].
    - by eapply toks_mono.
  Qed.
  Lemma G_flush s x : G s x → G (b_flush B s) x.
  Proof.
    intros ((Hp1 & Hp2 & Hc1 & Hc2) & Hv & Hpd & Hts). split; [|split_and!].
    - unfold J. rewrite bvis_flush, bview_flush. split_and!; try done; [apply cle_refl|]. by eapply cle_trans.
    - by rewrite bview_flush.
    - rewrite bpend_flush. by intros l ?%elem_of_nil.
    - done.
  Qed.
  Lemma G_push s m P t ts : G s (m, P, ts) → tok m t → G s (m, P, t :: ts).
  Proof. intros (HJ & Hv & Hpd & Hts) Ht. split_and!; try done. simpl. by constructor. Qed.
  Lemma G_vis s m P ts (l : arr n) : G s (m, P, ts) → l ∉ P → b_vis B s !! l = m !! l.
  Proof.
    intros (HJ & Hv & Hpd & Hts) Hl. rewrite bvis_view; [by rewrite Hv|]. intros Hin.
    by apply Hpd in Hin.
  Qed.
  Lemma G_vis_has s m P ts (l : arr n) v : G s (m, P, ts) → has (b_vis B s) l v → has m l v.
  Proof. intros ((_ & _ & Hc & _) & Hv & _) Hh. simpl in Hv. rewrite <- Hv. by apply Hc. Qed.
  Lemma G_perm s m P ts ts' : ts ≡ₚ ts' → G s (m, P, ts) → G s (m, P, ts').
  Proof. intros Hp (HJ & Hv & Hpd & Hts). split_and!; try done. simpl in *. by rewrite <- Hp. Qed.
  Lemma G_bumped s m P ts (l : arr n) : G s (m, P, ts) →
    bumped m P l (match b_vis B s !! l with Some nd => refs nd + 1 | None => 1 end).
  Proof using Hkp.
    clear Hn. intros HG. split.
    - intros Hl. rewrite (G_vis s m P ts l HG Hl). unfold nrefs. by destruct (m !! l).
    - destruct HG as ((Hp & _) & _). pose proof (keeps_fl H S fl pr Hkp _ l Hp) as Hf.
      unfold nrefs in Hf. destruct (b_vis B s !! l); lia.
  Qed.

  (** ** Merging *)
  (** State of the merge phase: the array [rs] represents blocks that remain to
      be merged at the boundaries [L]. *)
  Inductive mst (x0 : ist) (ts0 : list (trie n)) (rs : list (tref n)) (root : option (arr n))
      (L : list (nat * nat * nat)) (s : b_st B) : Prop :=
  | Mst bs m P ts :
      rep H rs 0 bs → bsorted bs → ts ≡ₚ bs.*1 → bounds 0 bs ≡ₚ L →
      rtc ev x0 (m, P, ts) → G s (m, P, ts) →
      mjoin (tleaves <$> bs.*1) = mjoin (tleaves <$> ts0) →
      (∀ I, mclosed I → I ts0 → I bs.*1) →
      match root with Some loc => loc ∈ troot H <$> bs.*1 | None => True end →
      mst x0 ts0 rs root L s.

  (** The branches that may be created do not reset a count. *)
  Definition may_merge (x0 : ist) (ts0 : list (trie n)) : Prop :=
    ∀ x bs1 l r bs2, rtc ev x0 x → x.2 ≡ₚ bs1 ++ l :: r :: bs2 →
      StronglySorted klt (tmin <$> bs1 ++ l :: r :: bs2) →
      mjoin (tleaves <$> bs1 ++ l :: r :: bs2) = mjoin (tleaves <$> ts0) →
      (bgood ts0 → bgood (bs1 ++ TNode l r :: bs2)) → S (branch_in (troot H l) (troot H r)) →
      fl (troot H (TNode l r)) ≤ 1.

  Lemma merge_one_wp x0 ts0 rs root it L s E : may_merge x0 ts0 →
    mst x0 ts0 rs root (it :: L) s → StronglySorted item_ge (it :: L) →
    wp B H S J (merge_one rs it) (λ x s', mst x0 ts0 x.1 (Some x.2) L s') E s.
  Proof.
    intros Hmay [bs m P ts Hrep Hs Hperm Hb Hev HG Hlv Hgd Hroot] HL.
    apply StronglySorted_inv in HL as [_ HF].
    assert (∀ it', it' ∈ bounds 0 bs → it'.1.1 ≤ it.1.1) as Hmax.
    { intros it'. rewrite Hb. intros [->|Hin]%elem_of_cons; [done|].
      rewrite Forall_forall in HF. by apply HF. }
    destruct it as [[sp p] q].
    assert ((sp, p, q) ∈ bounds 0 bs) as Hin by (rewrite Hb; by left).
    apply bounds_elem in Hin as (bs1 & l & wl & r & wr & bs2 & -> & -> & Hp & Hq).
    rewrite Nat.add_0_l in Hp, Hq.
    assert (bounds 0 (bs1 ++ (TNode l r, wl + wr) :: bs2) ≡ₚ L) as Hb'.
    { apply (Permutation_cons_inv (a := (tsplit l r, p, q))). rewrite <- Hb. symmetry.
      rewrite Hp, Hq. by apply (bounds_merge 0 bs1 l wl r wr bs2). }
    pose proof Hrep as Hrep0. apply rep_app in Hrep as [Hrep1 Hrep2]. rewrite Nat.add_0_l in Hrep2.
    set (a := width bs1) in *. cbn [rep] in Hrep2.
    destruct Hrep2 as (Hwl & Hlp & Hchl & Hwr & Hlq & Hchr & Hrep2).
    pose proof (rep_width H _ _ _ Hrep0 ltac:(by destruct bs1)) as Hwd.
    rewrite width_app in Hwd. cbn [width] in Hwd. fold a in Hwd. clear Hrep0.
    assert (q = Datatypes.S p) as Hqp by lia.
    unfold merge_one. rewrite <- Hp in Hlp.
    unfold index. rewrite Hlp. cbn [lift mbind prog_bind pbind].
    replace (a + wl) with (Datatypes.S p) in Hchr by lia.
    assert (∃ rn, rs !! q = Some rn ∧
      (if 1 <? tcount rn then lookahead (length rs) rs p (tcount rn) else Ok (q, tcount rn)) =
        Ok (p + wr, wr)) as (rn & Hrn & Hla).
    { inversion Hchr as [x Hx Hw He|c x Hx Hlt Hc0 Hle Hch He].
      - assert (wr = 1) as Hw1 by congruence. exists x. rewrite Hw1 in *.
        replace (Datatypes.S p + 1 - 1) with q in Hx by lia. split; [done|].
        rewrite Hw. simpl. f_equal. f_equal; lia.
      - exists x. replace (Datatypes.S p + 1 - 1) with q in Hx by lia. split; [done|].
        destruct (Nat.ltb_spec 1 (tcount x)); [|lia].
        apply lookahead_chain; try lia. done. }
    rewrite Hrn. cbn [lift mbind prog_bind pbind]. rewrite Hla. cbn [lift mbind prog_bind pbind fst snd].
    replace (p + wr) with (a + wl + wr - 1) by lia. rewrite Hlq.
    cbn [lift mbind prog_bind pbind tnodes tloc tkey tcount hash wp]. intros HS.
    cbn [db_insert mbind prog_bind pbind mret prog_ret wp].
    change (H (branch_in (troot H l) (troot H r))) with (oloc H (OT (TNode l r))).
    set (nd := Node 1 _).
    assert (Forall (tok m) [l; r]) as Htok.
    { destruct HG as (_ & _ & _ & Hts). simpl in Hts. rewrite Hperm in Hts.
      rewrite fmap_app in Hts. apply Forall_app in Hts as [_ Hts]. cbn in Hts.
      rewrite !Forall_cons in Hts. rewrite !Forall_cons. naive_solver. }
    rewrite !Forall_cons in Htok. destruct Htok as ((Hsl & Hwfl & Hpl) & (Hsr & Hwfr & Hpr) & _).
    assert (klt (tmin l) (tmin r)) as Hlt.
    { rewrite !fmap_app in Hs. cbn in Hs. apply StronglySorted_app_inv in Hs as (_ & Hs & _).
      apply StronglySorted_inv in Hs as [_ HFs]. by apply Forall_cons in HFs as [? _]. }
    assert (∀ I, mclosed I → I ts0 → I (bs1.*1 ++ TNode l r :: bs2.*1)) as Hgd'.
    { intros I HI Hg. specialize (Hgd I HI Hg). rewrite !fmap_app in *. cbn in *.
      assert (∀ x y, ∀ xs ys, bs1 ++ (l, wl) :: (r, wr) :: bs2 = xs ++ x :: y :: ys →
        tsplit x.1 y.1 ≤ tsplit l r) as Hadj.
      { intros [x wx] [y wy] xs ys Heq. rewrite Heq in Hmax. rewrite bounds_app in Hmax.
        eapply (Hmax (_, _, _)). apply elem_of_app. right. by left. }
      apply HI; [| | |done].
      + clear -Hs. rewrite fmap_app. cbn. done.
      + intros t Ht. destruct bs1 as [|[x wx] bs1 _] using rev_ind; [done|].
        rewrite fmap_app in Ht. cbn in Ht. rewrite last_snoc in Ht. injection Ht as <-.
        apply (Hadj (x, wx) (l, wl) bs1 ((r, wr) :: bs2)). by rewrite <- app_assoc.
      + intros t Ht. destruct bs2 as [|[y wy] bs2]; [done|]. cbn in Ht. injection Ht as <-.
        apply (Hadj (r, wr) (y, wy) (bs1 ++ [(l, wl)]) bs2). by rewrite <- app_assoc. }
    destruct (G_put s m P ts (OT (TNode l r)) nd HG) as [HG' Hcle].
    { unfold opre_ok. cbn [opre tpre]. constructor; [done|]. by apply Forall_app. }
    { by simpl. }
    { done. }
    { by simpl. }
    { apply (Hmay (m, P, ts) bs1.*1 l r bs2.*1); try done.
      - rewrite Hperm. by rewrite fmap_app.
      - by rewrite fmap_app in Hs.
      - by rewrite fmap_app in Hlv.
      - by apply Hgd', bgood_closed. }
    split; [by eapply G_J|].
    set (new := TRef _ _ _ _).
    assert (rs !! p = Some (TRef (tmin l) (troot H l) (tsize l) wl)) as Hlp' by done.
    assert (length rs > a + wl + wr - 1) as Hlen by (apply lookup_lt_Some in Hlq; lia).
    set (rs' := <[p := new]> (<[a + wl + wr - 1 := new]> rs)).
    assert (∀ i, i ≠ p → i ≠ a + wl + wr - 1 → rs' !! i = rs !! i) as Hfr.
    { intros i Hi1 Hi2. unfold rs'. rewrite !list_lookup_insert_ne by done. done. }
    assert (rs' !! p = Some new) as Hnp.
    { unfold rs'. apply list_lookup_insert. rewrite insert_length. lia. }
    assert (rs' !! (a + wl + wr - 1) = Some new) as Hnb.
    { unfold rs'. rewrite list_lookup_insert_ne by lia. apply list_lookup_insert. lia. }
    assert (ts ≡ₚ l :: r :: (bs1.*1 ++ bs2.*1)) as Hperm2.
    { rewrite Hperm, fmap_app. cbn. rewrite <- !Permutation_middle. done. }
    apply (Mst _ _ _ _ _ _ (bs1 ++ (TNode l r, wl + wr) :: bs2) (<[oloc H (OT (TNode l r)) := nd]> m)
      (oloc H (OT (TNode l r)) :: P) (TNode l r :: bs1.*1 ++ bs2.*1)); cbn [fst snd].
    - apply rep_app. rewrite Nat.add_0_l. fold a. split.
      + eapply rep_frame; [|done]. fold a. intros i Hi. apply Hfr; lia.
      + cbn [rep]. split_and!; [lia| | |].
        * rewrite Nat.add_assoc. rewrite Hnb. unfold new. cbn [tmin troot tsize].
          by rewrite (Nat.add_comm wr wl).
        * eapply (chain_extend rs rs' a wl wr 1 new); try lia; try done.
          -- intros i Hi. apply Hfr; lia.
          -- by rewrite <- Hp.
          -- unfold new. simpl. lia.
        * rewrite Nat.add_assoc. eapply rep_frame; [|done]. intros i Hi. apply Hfr; lia.
    - clear -Hs. rewrite !fmap_app in *. cbn in *.
      apply StronglySorted_app_inv in Hs as (H1 & H2 & H12).
      apply StronglySorted_inv in H2 as [H2 F2]. apply StronglySorted_inv in H2 as [H2 F3].
      apply Forall_cons in F2 as [_ F2].
      apply StronglySorted_app_intro; [done|by constructor|].
      intros x y Hx Hy. apply H12; [done|].
      apply elem_of_cons in Hy as [->|Hy]; [left|by right; right].
    - rewrite fmap_app. cbn. by rewrite <- Permutation_middle.
    - done.
    - eapply rtc_r; [exact Hev|]. by apply ev_merge.
    - apply G_push.
      + destruct HG' as (HJ & Hv & Hpd & Hts). split_and!; try done. simpl in *.
        rewrite Hperm2, !Forall_cons in Hts. naive_solver.
      + split_and!.
        * cbn [stored]. split; [|split; by eapply stored_mono].
          apply has_insert. by left.
        * done.
        * cbn [tpre]. constructor; [done|]. by apply Forall_app.
    - rewrite <- Hlv. rewrite !fmap_app, !mjoin_app. cbn. by rewrite <- !app_assoc.
    - by rewrite fmap_app.
    - rewrite !fmap_app. cbn. apply elem_of_app. right. left.
  Qed.

  Lemma merge_level_wp x0 ts0 rs root loc level L s E : may_merge x0 ts0 →
    mst x0 ts0 rs root (level ++ L) s → StronglySorted item_ge (level ++ L) →
    root = Some loc ∨ level ≠ [] →
    wp B H S J (merge_level rs loc level) (λ x s', mst x0 ts0 x.1 (Some x.2) L s') E s.
  Proof.
    intros Hmay. revert rs root loc s. induction level as [|it level IH]; intros rs root loc s Hm Hs Hr.
    - destruct Hr as [->|]; [|done]. done.
    - cbn [merge_level]. apply wp_bind. eapply wp_mono; [| |by eapply merge_one_wp]; [|done].
      intros [rs' loc'] s' Hm'. cbn [fst snd] in *. apply (IH rs' (Some loc')); [done| |by left].
      by apply StronglySorted_inv in Hs as [? _].
  Qed.

  Lemma mst_flush x0 ts0 rs root L s : mst x0 ts0 rs root L s → mst x0 ts0 rs root L (b_flush B s).
  Proof. intros [bs m P ts]. econstructor; try done. by apply G_flush. Qed.
  Lemma mst_J x0 ts0 rs root L s : mst x0 ts0 rs root L s → J s.
  Proof. intros [bs m P ts]. by eapply G_J. Qed.

  Lemma merge_all_wp x0 ts0 rs root levels s E : may_merge x0 ts0 →
    mst x0 ts0 rs root (mjoin levels) s → StronglySorted item_ge (mjoin levels) →
    Forall (λ lv, lv ≠ []) levels →
    wp B H S J (merge_all rs root levels)
      (λ o s', (∃ rs', mst x0 ts0 rs' o [] s') ∧
               (levels ≠ [] → is_Some o ∧ b_vis B s' = bview s' ∧ bpend s' = []))
      E s.
  Proof.
    intros Hmay. revert rs root s. induction levels as [|lv levels IH]; intros rs root s Hm Hs Hne.
    - simpl. split; [by eexists|done].
    - apply Forall_cons in Hne as [Hlv Hne]. cbn [merge_all]. unfold merge_nodes.
      cbn in Hm, Hs. fold (mjoin levels) in Hm, Hs.
      apply wp_bind, wp_bind.
      eapply wp_mono; [| |eapply (merge_level_wp _ _ _ root); [exact Hmay|exact Hm|done|by right]]; [|done].
      intros [rs' loc'] s' Hm'. cbn [fst snd] in *.
      cbn [batch_write mbind prog_bind pbind mret prog_ret wp].
      apply mst_flush in Hm'. split; [by eapply mst_J|].
      destruct levels as [|lv' levels].
      + cbn. split; [by eexists|]. intros _. split_and!; [done|by rewrite bvis_flush, bview_flush|].
        apply bpend_flush.
      + eapply wp_mono; [| |apply IH]; [|done| | |].
        * cbn. intros o s'' [Hm'' Ho]. split; [done|]. intros _. by apply Ho.
        * done.
        * by apply StronglySorted_app_inv in Hs as (_ & ? & _).
        * done.
  Qed.

  Lemma sort_refs_tries ts : ∃ ts', ts' ≡ₚ ts ∧ sort_refs (ref_of H <$> ts) = ref_of H <$> ts' ∧
    StronglySorted arr_le (tmin <$> ts').
  Proof.
    assert (ref_of H <$> ts ≡ₚ sort_refs (ref_of H <$> ts)) as Hp.
    { symmetry. apply merge_sort_Permutation. }
    symmetry in Hp. apply Permutation_map_inv in Hp as (ts' & Heq & Hp).
    exists ts'. split_and!; [by symmetry|done|].
    assert (Total (@tref_le n)) as Ht.
    { intros a b. unfold tref_le. apply (total (@arr_le n)). }
    assert (Transitive (@tref_le n)) as Htr.
    { intros a b c. unfold tref_le. apply (transitivity (R := @arr_le n)). }
    pose proof (StronglySorted_merge_sort (@tref_le n) (ref_of H <$> ts)) as Hs.
    assert (StronglySorted (@tref_le n) (ref_of H <$> ts')) as Hs' by exact (eq_ind _ (StronglySorted (@tref_le n)) Hs _ Heq).
    clear -Hs'. rename Hs' into Hs.
    induction ts' as [|t ts' IH]; [constructor|].
    rewrite fmap_cons in *. apply StronglySorted_inv in Hs as [Hs F]. constructor; [auto|].
    apply Forall_forall. intros k (t' & -> & Ht)%elem_of_list_fmap. eapply (proj1 (Forall_forall _ _) F (ref_of H t')). apply (elem_of_list_fmap_1 (ref_of H)), Ht.
  Qed.

  Lemma bounds_nil off bs : bounds off bs = [] → bs = [] ∨ ∃ t w, bs = [(t, w)] .
  Proof. destruct bs as [|[t w] [|[]]]; simpl; eauto. done. Qed.

  Lemma create_tree_wp_i ts s m P : G s (m, P, ts) → ts ≠ [] →
    (∀ ts0, ts0 ≡ₚ ts → StronglySorted klt (tmin <$> ts0) → may_merge (m, P, ts) ts0) →
    wp B H S J (create_tree (ref_of H <$> ts))
      (λ loc s', ∃ m' P' t ts', loc = troot H t ∧ rtc ev (m, P, ts) (m', P', [t]) ∧
         G s' (m', P', [t]) ∧ ts' ≡ₚ ts ∧ StronglySorted klt (tmin <$> ts') ∧
         tleaves t = mjoin (tleaves <$> ts') ∧ merged ts' t ∧
         b_vis B s' = bview s' ∧ bpend s' = [])
      (λ er s', J s' ∧ er = "Attempted to insert item with duplicate keys" ∧ ¬ NoDup (tmin <$> ts) ∧ s' = s) s.
  Proof.
    intros HG Hne Hmay. destruct ts as [|t0 [|t1 ts]]; [done| |].
    - cbn. apply G_flush in HG. split; [by eapply G_J|].
      exists m, P, t0, [t0]. split_and!; try reflexivity; try done.
      + repeat constructor.
      + cbn. by rewrite app_nil_r.
      + by intros I _ ?.
      + by rewrite bvis_flush, bview_flush.
      + apply bpend_flush.
    - unfold create_tree. destruct (sort_refs_tries (t0 :: t1 :: ts)) as (ts' & Hp & Hsr & Hso).
      set (ts0 := t0 :: t1 :: ts) in *.
      change (wp B H S J (items ← lift (generate_items 0 (sort_refs (ref_of H <$> ts0)));
          o ← merge_all (sort_refs (ref_of H <$> ts0)) None (levels_of items);
          match o with Some root => mret root | None => Throw "Failed to get root." end)
        (λ (loc : arr n) (s' : b_st B), ∃ m' P' t ts', loc = troot H t ∧ rtc ev (m, P, ts0) (m', P', [t]) ∧
         G s' (m', P', [t]) ∧ ts' ≡ₚ ts0 ∧ StronglySorted klt (tmin <$> ts') ∧
         tleaves t = mjoin (tleaves <$> ts') ∧ merged ts' t ∧
         b_vis B s' = bview s' ∧ bpend s' = [])
        (λ er s', J s' ∧ er = "Attempted to insert item with duplicate keys" ∧ ¬ NoDup (tmin <$> ts0) ∧ s' = s) s).
      rewrite Hsr.
      destruct (generate_items_dup H Hn 0 ts' Hso) as [(e & He & -> & Hnd)|Hk].
      { rewrite He. cbn. split_and!; [by eapply G_J|done| |done]. intros Hnd'. apply Hnd. by rewrite Hp. }
      rewrite (generate_items_sorted H Hn) by done. cbn [lift mbind prog_bind pbind].
      destruct (levels_of_spec (bounds 0 (singles ts'))) as (L1 & L2 & L3).
      assert (length ts' = Datatypes.S (Datatypes.S (length ts))) as Hlen.
      { by rewrite Hp. }
      apply wp_bind. eapply wp_mono; [| |eapply merge_all_wp; [by apply (Hmay ts')| |done|done]].
      + intros o s' [[rs' [bs m' P' ts'' Hrep Hbs Hperm Hb Hev HG' Hlv Hgd Hroot]] Hlev].
        destruct Hlev as ([loc ->] & Hvis & Hpend).
        { intros Hnil. rewrite Hnil in L1. cbn in L1. apply Permutation_nil in L1.
          destruct ts' as [|? [|? ?]]; done. }
        symmetry in Hb. apply Permutation_nil in Hb.
        apply bounds_nil in Hb as [->|(t & w & ->)]; [by apply elem_of_nil in Hroot|].
        cbn in Hroot. apply elem_of_list_singleton in Hroot as ->.
        cbn in Hperm. apply Permutation_singleton_r in Hperm as ->.
        exists m', P', t, ts'. split_and!; try done.
        cbn in Hlv. by rewrite app_nil_r in Hlv.
      + by intros er s' He; exact He.
      + apply (Mst _ _ _ _ _ _ (singles ts') m P ts0).
        * apply (rep_singles H [] ts').
        * by rewrite singles_fst.
        * by rewrite singles_fst.
        * by rewrite L1.
        * done.
        * done.
        * by rewrite singles_fst.
        * by rewrite singles_fst.
        * done.
  Qed.
  Lemma create_tree_wp ts s m P : G s (m, P, ts) → ts ≠ [] →
    (∀ ts0, ts0 ≡ₚ ts → StronglySorted klt (tmin <$> ts0) → may_merge (m, P, ts) ts0) →
    wp B H S J (create_tree (ref_of H <$> ts))
      (λ loc s', ∃ m' P' t ts', loc = troot H t ∧ rtc ev (m, P, ts) (m', P', [t]) ∧
         G s' (m', P', [t]) ∧ ts' ≡ₚ ts ∧ StronglySorted klt (tmin <$> ts') ∧
         tleaves t = mjoin (tleaves <$> ts') ∧ (bgood ts' → twf t) ∧
         b_vis B s' = bview s' ∧ bpend s' = [])
      (λ er s', J s' ∧ er = "Attempted to insert item with duplicate keys" ∧ ¬ NoDup (tmin <$> ts) ∧ s' = s) s.
  Proof.
    intros HG Hne Hmay. eapply wp_mono; [| |by apply create_tree_wp_i]; [|done].
    intros loc s' (m' & P' & t & ts' & ? & ? & ? & ? & ? & ? & Hm & ? & ?). exists m', P', t, ts'. split_and!; try done.
    by apply merged_good.
  Qed.
End Evol.

(** Every state of an insertion, without a bound on counts. *)
Notation J H S := (Jp (proper H S)).

Lemma ev_dup {n} (H : list bytes → arr n) S fl isnew piece (dup dup' : arr n → bytes → Prop) x y :
  (∀ k e, dup k e → dup' k e) → ev H S fl isnew piece dup x y → ev H S fl isnew piece dup' x y.
Proof.
  intros Hd. destruct 1; [by apply ev_leaf|by apply ev_piece| |by apply ev_merge]. apply ev_again; auto.
Qed.
