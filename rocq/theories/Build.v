(** * State invariant of insertions, and [create_tree] *)
From Coq Require Import Strings.Byte NArith.
From stdpp Require Import prelude countable gmap sorting strings.
From Verif Require Import Model Bits Util Trie Store Logic.

Local Open Scope nat_scope.

Lemma mjoin_app {A} (xs ys : list (list A)) : mjoin (xs ++ ys) = mjoin xs ++ mjoin ys.
Proof. induction xs as [|x xs IH]; [done|]. simpl. rewrite <- app_assoc. f_equal. apply IH. Qed.

(** ** Block lists
    During the merge phase the array of references is divided into blocks of
    consecutive entries, each standing for one trie.  A block is a trie and the
    number of original references it covers. *)
Section Blocks.
  Context {n : nat}.
  Implicit Types (t l r : trie n) (bs : list (trie n * nat)).

  Fixpoint bounds (off : nat) bs : list (nat * nat * nat) :=
    match bs with
    | (l, wl) :: (((r, _) :: _) as bs') => (tsplit l r, off + wl - 1, off + wl) :: bounds (off + wl) bs'
    | _ => []
    end.
  Lemma bounds_cons off l wl r wr bs :
    bounds off ((l, wl) :: (r, wr) :: bs) =
      (tsplit l r, off + wl - 1, off + wl) :: bounds (off + wl) ((r, wr) :: bs).
  Proof. done. Qed.
  Fixpoint width bs : nat := match bs with [] => 0 | (_, w) :: bs' => w + width bs' end.

  Lemma width_app bs1 bs2 : width (bs1 ++ bs2) = width bs1 + width bs2.
  Proof. induction bs1 as [|[t w] bs1 IH]; simpl; [done|]. rewrite IH. lia. Qed.

  (** The bounds around a pair of adjacent blocks. *)
  Lemma bounds_app off bs1 l wl r wr bs2 :
    bounds off (bs1 ++ (l, wl) :: (r, wr) :: bs2) =
      bounds off (bs1 ++ [(l, wl)]) ++
      (tsplit l r, off + width bs1 + wl - 1, off + width bs1 + wl) ::
      bounds (off + width bs1 + wl) ((r, wr) :: bs2).
  Proof.
    revert off. induction bs1 as [|[t w] bs1 IH]; intros off.
    - simpl. by rewrite Nat.add_0_r.
    - destruct bs1 as [|[t' w'] bs1].
      + cbn [app bounds width]. rewrite !Nat.add_0_r. done.
      + specialize (IH (off + w)). cbn [app bounds width] in *. rewrite IH.
        cbn [app]. do 2 f_equal. rewrite !Nat.add_assoc. done.
  Qed.
  Lemma bounds_elem off bs s i j : (s, i, j) ∈ bounds off bs →
    ∃ bs1 l wl r wr bs2, bs = bs1 ++ (l, wl) :: (r, wr) :: bs2 ∧
      s = tsplit l r ∧ i = off + width bs1 + wl - 1 ∧ j = off + width bs1 + wl.
  Proof.
    revert off. induction bs as [|[l wl] bs IH]; intros off Hin; [by apply elem_of_nil in Hin|].
    destruct bs as [|[r wr] bs]; [by apply elem_of_nil in Hin|].
    cbn [bounds] in Hin. apply elem_of_cons in Hin as [Heq|Hin].
    - injection Heq as -> -> ->. exists [], l, wl, r, wr, bs. simpl. by rewrite Nat.add_0_r.
    - apply IH in Hin as (bs1 & l' & wl' & r' & wr' & bs2 & -> & -> & -> & ->).
      exists ((l, wl) :: bs1), l', wl', r', wr', bs2. simpl. rewrite !Nat.add_assoc. done.
  Qed.
  (** Smallest keys in strictly increasing order. *)
  Notation bsorted bs := (StronglySorted klt (tmin <$> bs.*1)).

  Lemma bounds_merge off bs1 l wl r wr bs2 :
    bsorted (bs1 ++ (l, wl) :: (r, wr) :: bs2) →
    (∀ it, it ∈ bounds off (bs1 ++ (l, wl) :: (r, wr) :: bs2) → it.1.1 ≤ tsplit l r) →
    bounds off (bs1 ++ (l, wl) :: (r, wr) :: bs2) ≡ₚ
      (tsplit l r, off + width bs1 + wl - 1, off + width bs1 + wl) ::
      bounds off (bs1 ++ (TNode l r, wl + wr) :: bs2).
  Proof.
    intros Hs Hmax. rewrite bounds_app. rewrite bounds_app in Hmax.
    rewrite <- Permutation_middle. constructor.
    assert (bounds off (bs1 ++ [(l, wl)]) = bounds off (bs1 ++ [(TNode l r, wl + wr)])) as ->.
    { clear. revert off. induction bs1 as [|[t w] bs1 IH]; intros off; [done|].
      destruct bs1 as [|[t' w'] bs1]; [done|].
      cbn [app]. rewrite !bounds_cons. f_equal. apply (IH (off + w)). }
    destruct bs2 as [|[q wq] bs2].
    { cbn [bounds]. by rewrite app_nil_r. }
    rewrite (bounds_app _ bs1 (TNode l r)). cbn [bounds].
    assert (tsplit (TNode l r) q = tsplit r q) as ->.
    { rewrite fmap_app, fmap_app in Hs. cbn in Hs.
      apply StronglySorted_app_inv in Hs as (_ & Hs & _).
      apply StronglySorted_inv in Hs as [Hs F1]. apply StronglySorted_inv in Hs as [Hs F2].
      apply Forall_cons in F1 as [Hlr _]. apply Forall_cons in F2 as [Hrq _].
      unfold tsplit. cbn [tmin]. rewrite (klcp_sorted _ (tmin r)) by done.
      specialize (Hmax (tsplit r q, off + width bs1 + wl + wr - 1, off + width bs1 + wl + wr)).
      unfold tsplit in Hmax. cbn in Hmax. apply Nat.min_r, Hmax.
      apply elem_of_app. right. right. left. }
    rewrite !Nat.add_assoc. done.
  Qed.

  Definition sep t1 t2 : Prop :=
    (∀ k, k ∈ tkeys t1 → tsplit t1 t2 < klcp k (tmin t1)) ∧
    (∀ k, k ∈ tkeys t2 → tsplit t1 t2 < klcp k (tmin t2)).
  (** Well-formed tries, consecutive ones separated by their split bit. *)
  Fixpoint bgood (ts : list (trie n)) : Prop :=
    match ts with
    | l :: ts' => twf l ∧ match ts' with r :: _ => sep l r | [] => True end ∧ bgood ts'
    | [] => True
    end.
  Lemma bgood_app ts1 l ts2 : bgood (ts1 ++ l :: ts2) ↔ bgood (ts1 ++ [l]) ∧ bgood (l :: ts2).
  Proof.
    induction ts1 as [|t ts1 IH].
    - simpl. naive_solver.
    - destruct ts1 as [|t' ts1]; simpl in *; naive_solver.
  Qed.
  Lemma bgood_merge ts1 l r ts2 :
    StronglySorted klt (tmin <$> (ts1 ++ l :: r :: ts2)) →
    (∀ p, last ts1 = Some p → tsplit p l ≤ tsplit l r) →
    (∀ q, head ts2 = Some q → tsplit r q ≤ tsplit l r) →
    bgood (ts1 ++ l :: r :: ts2) → bgood (ts1 ++ TNode l r :: ts2).
  Proof.
    intros Hs Hp Hq Hg.
    rewrite bgood_app in Hg. destruct Hg as [Hg1 (Hwl & Hlr & Hg2)].
    rewrite fmap_app in Hs. apply StronglySorted_app_inv in Hs as (Hs1 & Hs2 & Hs12). cbn in Hs2.
    apply StronglySorted_inv in Hs2 as [Hs2 F1]. apply Forall_cons in F1 as [Hltlr _].
    apply StronglySorted_inv in Hs2 as [_ F2].
    destruct Hg2 as (Hwr & Hrq & Hg2).
    assert (twf (TNode l r)) as Hw.
    { destruct Hlr as [Ha Hb]. simpl. split_and!; done. }
    rewrite bgood_app. split.
    - destruct ts1 as [|p ts1 _] using rev_ind; [simpl; done|].
      rewrite <- app_assoc in *. cbn [app] in *.
      rewrite bgood_app in Hg1. rewrite bgood_app. destruct Hg1 as [Hg1 (Hwp & Hpl & _)].
      split; [done|]. split; [done|]. split; [|simpl; done].
      rewrite last_snoc in Hp. specialize (Hp p eq_refl).
      assert (klt (tmin p) (tmin l)) as Hltpl.
      { apply Hs12; [|by left]. rewrite fmap_app, elem_of_app. right. by left. }
      assert (tsplit p l ≠ tsplit l r) as Hne by (by apply klcp_consec_ne).
      destruct Hpl as [Hpl1 Hpl2].
      split; unfold tsplit; cbn [tmin]; fold (tsplit p l); [done|].
      intros k. rewrite tkeys_node, elem_of_app. intros [Hk|Hk]; [auto|].
      destruct (twf_right l r k Hw Hk) as [-> _]. lia.
    - split; [done|]. destruct ts2 as [|q ts2]; [simpl; done|].
      split; [|done]. specialize (Hq q eq_refl).
      apply Forall_cons in F2 as [Hltrq _].
      assert (tsplit l r ≠ tsplit r q) as Hne by (by apply klcp_consec_ne).
      destruct Hrq as [Hrq1 Hrq2].
      assert (tsplit (TNode l r) q = tsplit r q) as Heq.
      { unfold tsplit in *. cbn [tmin]. rewrite (klcp_sorted _ (tmin r)) by done. lia. }
      split; rewrite Heq; [|done].
      intros k. cbn [tmin]. rewrite tkeys_node, elem_of_app. intros [Hk|Hk].
      + apply (twf_left l r k Hw) in Hk as [? _]. lia.
      + destruct (twf_right l r k Hw Hk) as [-> _]. lia.
  Qed.
End Blocks.
Notation bsorted bs := (StronglySorted klt (tmin <$> bs.*1)).

(** ** The array of references represents a block list *)
Section Rep.
  Context {n : nat} (H : list bytes → arr n).
  Implicit Types (t l r : trie n) (bs : list (trie n * nat)) (rs : list (tref n)).

  Definition ref_of t : tref n := TRef (tmin t) (troot H t) (tsize t) 1.

  (** The walk of the lookahead loop from offset [c] in the block at [a] to its
      last entry. *)
  Inductive chain rs (a w : nat) : nat → Prop :=
  | chain_done x : rs !! (a + w - 1) = Some x → tcount x = w → chain rs a w w
  | chain_step c x : rs !! (a + c - 1) = Some x → c < tcount x → 0 < c → tcount x ≤ w →
      chain rs a w (tcount x) → chain rs a w c.

  Fixpoint rep rs (off : nat) bs : Prop :=
    match bs with
    | [] => True
    | (t, w) :: bs' =>
        0 < w ∧ rs !! (off + w - 1) = Some (TRef (tmin t) (troot H t) (tsize t) w) ∧
        chain rs off w 1 ∧ rep rs (off + w) bs'
    end.

  Lemma rep_app rs off bs1 bs2 :
    rep rs off (bs1 ++ bs2) ↔ rep rs off bs1 ∧ rep rs (off + width bs1) bs2.
  Proof.
    revert off. induction bs1 as [|[t w] bs1 IH]; intros off; simpl.
    - rewrite Nat.add_0_r. naive_solver.
    - rewrite IH, Nat.add_assoc. naive_solver.
  Qed.
  Lemma chain_frame rs rs' a w c : 0 < c → c ≤ w →
    (∀ i, a ≤ i < a + w → rs' !! i = rs !! i) → chain rs a w c → chain rs' a w c.
  Proof.
    intros Hc Hcw Hf Hch. induction Hch as [x Hx Hw|c x Hx Hlt Hc0 Hle Hch IH].
    - apply (chain_done _ _ _ x); [|done]. rewrite Hf by lia. done.
    - apply (chain_step _ _ _ _ x); try done; [|apply IH; lia]. rewrite Hf by lia. done.
  Qed.
  Lemma rep_frame rs rs' off bs :
    (∀ i, off ≤ i < off + width bs → rs' !! i = rs !! i) → rep rs off bs → rep rs' off bs.
  Proof.
    revert off. induction bs as [|[t w] bs IH]; intros off Hf; simpl; [done|].
    intros (Hw & Hl & Hch & Hrep). simpl in Hf. split_and!; [done| | |].
    - rewrite Hf by lia. done.
    - eapply chain_frame; [lia|lia| |done]. intros i Hi. apply Hf. lia.
    - apply IH; [|done]. intros i Hi. apply Hf. lia.
  Qed.
  (** Extending a block to the right. *)
  Lemma chain_extend rs rs' a wl wr c x : 0 < c → c ≤ wl → 0 < wr →
    (∀ i, a ≤ i < a + wl - 1 → rs' !! i = rs !! i) →
    rs' !! (a + wl - 1) = Some x → rs' !! (a + wl + wr - 1) = Some x → tcount x = wl + wr →
    chain rs a wl c → chain rs' a (wl + wr) c.
  Proof.
    intros Hc Hcw Hwr Hf Hp Hb Hx Hch. induction Hch as [y Hy Hw|c y Hy Hlt Hc0 Hle Hch IH].
    - apply (chain_step _ _ _ _ x); [done|lia|lia|lia|]. rewrite Hx.
      apply (chain_done _ _ _ x); [|done]. by rewrite Nat.add_assoc.
    - apply (chain_step _ _ _ _ y); [|done|done|lia|apply IH; lia]. rewrite Hf; [done|].
      destruct (decide (tcount y = wl)); [lia|]. lia.
  Qed.
  Lemma lookahead_chain rs p w c fuel : 0 < c → c ≤ w → w ≤ c + fuel →
    chain rs (S p) w c → lookahead fuel rs p c = Ok (p + w, w).
  Proof.
    intros Hc Hcw Hf Hch. revert fuel Hf.
    induction Hch as [y Hy Hw|c y Hy Hlt Hc0 Hle Hch IH]; intros fuel Hf.
    - replace (S p + w - 1) with (p + w) in Hy by lia.
      destruct fuel; cbn [lookahead]; unfold index; rewrite Hy; cbn [mbind res_bind]; rewrite Hw;
        (destruct (Nat.ltb_spec w w); [lia|done]).
    - replace (S p + c - 1) with (p + c) in Hy by lia.
      destruct fuel as [|fuel]; cbn [lookahead]; unfold index; rewrite Hy; cbn [mbind res_bind];
        (destruct (Nat.ltb_spec c (tcount y)); [|lia]); [lia|].
      apply IH; lia.
  Qed.
  Lemma rep_width rs off bs : rep rs off bs → bs ≠ [] → off + width bs ≤ length rs.
  Proof.
    revert off. induction bs as [|[t w] bs IH]; intros off Hrep Hne; [done|].
    simpl in *. destruct Hrep as (Hw & Hl & _ & Hrep).
    apply lookup_lt_Some in Hl. destruct bs as [|b bs]; [simpl; lia|].
    specialize (IH _ Hrep ltac:(done)). lia.
  Qed.

  Definition singles (ts : list (trie n)) : list (trie n * nat) := (λ t, (t, 1)) <$> ts.
  Lemma singles_fst ts : (singles ts).*1 = ts.
  Proof. unfold singles. rewrite <- list_fmap_compose. apply list_fmap_id. Qed.
  Lemma rep_singles pre ts : rep ((ref_of <$> pre) ++ (ref_of <$> ts)) (length pre) (singles ts).
  Proof.
    revert pre. induction ts as [|t ts IH]; intros pre; simpl; [done|].
    assert (((ref_of <$> pre) ++ ref_of t :: (ref_of <$> ts)) !! (length pre + 1 - 1) = Some (ref_of t)) as Hl.
    { rewrite lookup_app_r; rewrite fmap_length; [|lia].
      replace (length pre + 1 - 1 - length pre) with 0 by lia. done. }
    split_and!; [lia|done| |].
    - by apply (chain_done _ _ _ (ref_of t)).
    - specialize (IH (pre ++ [t])). rewrite fmap_app, <- app_assoc, app_length in IH. done.
  Qed.

  (** *** The work list *)
  Context (Hn : 0 < n).
  Lemma generate_items_cons i (r1 r2 : tref n) rs :
    generate_items i (r1 :: r2 :: rs) =
      s ← adjacent_split 0 (tkey r1) (tkey r2);
      rest ← generate_items (S i) (r2 :: rs);
      Ok (match s with Some s => (s, i, i + 1) :: rest | None => rest end).
  Proof. done. Qed.
  Lemma generate_items_sorted i ts : StronglySorted klt (tmin <$> ts) →
    generate_items i (ref_of <$> ts) = Ok (bounds i (singles ts)).
  Proof.
    revert i. induction ts as [|t ts IH]; intros i Hs; [done|].
    destruct ts as [|t' ts]; [done|].
    pose proof Hs as Hs0. rewrite !fmap_cons in Hs. apply StronglySorted_inv in Hs as [Hs F].
    apply Forall_cons in F as [Hlt _].
    change (ref_of <$> t :: t' :: ts) with (ref_of t :: ref_of t' :: (ref_of <$> ts)).
    rewrite generate_items_cons. cbn [tkey ref_of].
    rewrite adjacent_split_key by done. rewrite decide_False by (by apply klt_ne).
    specialize (IH (S i) Hs). rewrite fmap_cons in IH. cbn [mbind res_bind]. rewrite IH.
    unfold singles. rewrite !fmap_cons, bounds_cons. cbn [mbind res_bind]. unfold tsplit.
    rewrite Nat.add_sub, Nat.add_1_r. done.
  Qed.
  Lemma generate_items_dup i ts : StronglySorted arr_le (tmin <$> ts) →
    (∃ e, generate_items i (ref_of <$> ts) = Err e ∧
       e = "Attempted to insert item with duplicate keys" ∧ ¬ NoDup (tmin <$> ts)) ∨
    StronglySorted klt (tmin <$> ts).
  Proof.
    revert i. induction ts as [|t ts IH]; intros i Hs; [right; constructor|].
    pose proof Hs as Hs0. rewrite !fmap_cons in Hs. apply StronglySorted_inv in Hs as [Hs F].
    destruct (IH (S i) Hs) as [(e & He & -> & Hnd)|Hk].
    - destruct ts as [|t' ts]; [done|].
      change (ref_of <$> t :: t' :: ts) with (ref_of t :: ref_of t' :: (ref_of <$> ts)).
      left. exists "Attempted to insert item with duplicate keys".
      split_and!; [|done|].
      + rewrite generate_items_cons. cbn [tkey ref_of]. rewrite adjacent_split_key by done.
        destruct (decide (tmin t = tmin t')); [done|].
        cbn [mbind res_bind]. rewrite fmap_cons in He. rewrite He. done.
      + rewrite fmap_cons. by intros [_ ?]%NoDup_cons.
    - destruct ts as [|t' ts]; [right; repeat constructor|].
      destruct (decide (tmin t = tmin t')) as [Heq|Hne].
      + left. exists "Attempted to insert item with duplicate keys". split_and!; [|done|].
        * change (ref_of <$> t :: t' :: ts) with (ref_of t :: ref_of t' :: (ref_of <$> ts)).
          rewrite generate_items_cons. cbn [tkey ref_of]. rewrite adjacent_split_key by done.
          by rewrite decide_True.
        * rewrite !fmap_cons, Heq. intros [Hni _]%NoDup_cons. apply Hni. by left.
      + right. rewrite fmap_cons. constructor; [done|].
        rewrite fmap_cons in F, Hk |- *. apply Forall_cons in F as [Hle F].
        apply arr_le_iff in Hle as [Hlt|]; [|done].
        apply StronglySorted_inv in Hk as [_ Hk]. constructor; [done|].
        eapply Forall_impl; [exact Hk|]. intros k Hk'. simpl in Hk'. by eapply klt_trans.
  Qed.

End Rep.

Section Levels.
  (** The levels list the items by decreasing split bit. *)
  Definition item_ge (x y : nat * nat * nat) : Prop := y.1.1 ≤ x.1.1.
  Lemma levels_split (ss : list nat) (items : list (nat * nat * nat)) :
    StronglySorted (λ a b, b < a) ss → (∀ it, it ∈ items → it.1.1 ∈ ss) →
    mjoin ((λ s, filter (λ it, it.1.1 = s) items) <$> ss) ≡ₚ items.
  Proof.
    revert items. induction ss as [|s ss IH]; intros items Hs Hin.
    - destruct items as [|it items]; [done|]. exfalso.
      eapply elem_of_nil, (Hin it). by left.
    - apply StronglySorted_inv in Hs as [Hs F]. cbn [fmap list_fmap mjoin list_join].
      assert (((λ s0, filter (λ it, it.1.1 = s0) items) <$> ss) =
              ((λ s0, filter (λ it, it.1.1 = s0) (filter (λ it, it.1.1 ≠ s) items)) <$> ss)) as Heq.
      { apply list_fmap_ext. intros i s' Hs'. rewrite list_filter_filter.
        apply list_filter_iff. intros it. split; [|naive_solver]. intros <-. split; [done|].
        intros Heq. rewrite Forall_forall in F. apply elem_of_list_lookup_2 in Hs'. rewrite Heq in Hs'.
        specialize (F s Hs'). simpl in F. lia. }
      rewrite Heq, IH; [|done|].
      + clear. induction items as [|it items IHi]; [done|]. rewrite !filter_cons.
        destruct (decide (it.1.1 = s)) as [He|He].
        * destruct (decide (it.1.1 ≠ s)); [done|]. simpl. by constructor.
        * destruct (decide (it.1.1 ≠ s)); [|done]. rewrite <- Permutation_middle. by constructor.
      + intros it [Hne Hit]%elem_of_list_filter. apply Hin in Hit.
        apply elem_of_cons in Hit as [|]; done.
  Qed.
  Lemma levels_sorted (ss : list nat) (items : list (nat * nat * nat)) :
    StronglySorted (λ a b, b < a) ss →
    StronglySorted item_ge (mjoin ((λ s, filter (λ it, it.1.1 = s) items) <$> ss)).
  Proof.
    induction ss as [|s ss IH]; intros Hs; [constructor|].
    apply StronglySorted_inv in Hs as [Hs F]. cbn [fmap list_fmap mjoin list_join].
    apply StronglySorted_app_intro; [|by apply IH|].
    - clear. induction items as [|it items IHi]; [constructor|]. rewrite filter_cons.
      destruct (decide _) as [He|He]; [|done]. constructor; [done|]. apply Forall_forall.
      intros it' [He' _]%elem_of_list_filter. unfold item_ge. lia.
    - intros a b [Ha _]%elem_of_list_filter Hb.
      apply elem_of_list_join in Hb as (lv & Hb & Hlv).
      apply elem_of_list_fmap in Hlv as (s' & -> & Hs').
      apply elem_of_list_filter in Hb as [Hb _].
      rewrite Forall_forall in F. apply F in Hs'. unfold item_ge. simpl in Hs'. lia.
  Qed.
  Lemma levels_of_spec (items : list (nat * nat * nat)) :
    mjoin (levels_of items) ≡ₚ items ∧ StronglySorted item_ge (mjoin (levels_of items)) ∧
    Forall (λ lv, lv ≠ []) (levels_of items).
  Proof.
    unfold levels_of. set (d := remove_dups ((λ it : nat * nat * nat, it.1.1) <$> items)).
    set (ss := reverse (merge_sort le d)).
    assert (StronglySorted (λ a b, b < a) ss) as Hss.
    { unfold ss. assert (StronglySorted le (merge_sort le d)) as Hle
        by (apply (StronglySorted_merge_sort le)).
      assert (NoDup (merge_sort le d)) as Hnd.
      { rewrite merge_sort_Permutation. apply NoDup_remove_dups. }
      revert Hle Hnd. generalize (merge_sort le d). clear. intros l Hle Hnd.
      induction l as [|x l IH]; [constructor|].
      apply StronglySorted_inv in Hle as [Hle F]. apply NoDup_cons in Hnd as [Hx Hnd].
      rewrite reverse_cons. apply StronglySorted_app_intro; [auto|repeat constructor|].
      intros a b Ha ->%elem_of_list_singleton. rewrite elem_of_reverse in Ha.
      rewrite Forall_forall in F. specialize (F a Ha).
      assert (a ≠ x) by (intros ->; done). lia. }
    assert (∀ s, s ∈ ss ↔ ∃ it, it ∈ items ∧ it.1.1 = s) as Hin.
    { intros s. unfold ss. rewrite elem_of_reverse, merge_sort_Permutation. unfold d.
      rewrite elem_of_remove_dups, elem_of_list_fmap. naive_solver. }
    split_and!.
    - apply levels_split; [done|]. intros it Hit. apply Hin. eauto.
    - by apply levels_sorted.
    - apply Forall_forall. intros lv (s & -> & Hs)%elem_of_list_fmap.
      apply Hin in Hs as (it & Hit & Hits). intros Hnil.
      apply (elem_of_nil it). rewrite <- Hnil. by apply elem_of_list_filter.
  Qed.
End Levels.
