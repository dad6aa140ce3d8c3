(** * The number of keys recorded in a branch
    A branch is never recorded with more keys than were passed to the insertions
    so far, whatever the calls and their results. *)
From Coq Require Import Strings.Byte NArith.
From stdpp Require Import prelude countable gmap sorting strings.
From Verif Require Import Model Spec Bits Util Trie Store Logic Build Reads Hist Claims RefCount Live Struct Weak Machine.

Local Open Scope nat_scope.

(** ** Merging
    Nothing is assumed of the references, except that they are fresh. *)
Section Widths.
  Context {n : nat}.
  Implicit Types (rs : list (tref n)) (ws : list (nat * nat)).

  (** Blocks of the array, given by their widths and the numbers of keys below
      their last entries. *)
  Fixpoint total ws : nat := match ws with [] => 0 | w :: ws' => w.1 + total ws' end.
  Fixpoint weight ws : nat := match ws with [] => 0 | w :: ws' => w.2 + weight ws' end.
  Fixpoint ends (off : nat) ws : list nat :=
    match ws with [] => [] | w :: ws' => (off + w.1) :: ends (off + w.1) ws' end.
  Fixpoint blk rs (off : nat) ws : Prop :=
    match ws with
    | [] => True
    | w :: ws' => 0 < w.1 ∧ (∃ x, rs !! (off + w.1 - 1) = Some x ∧ tcount x = w.1 ∧ tnodes x = w.2) ∧
        chain rs off w.1 1 ∧ blk rs (off + w.1) ws'
    end.
  Lemma total_app ws1 ws2 : total (ws1 ++ ws2) = total ws1 + total ws2.
  Proof. induction ws1; cbn; lia. Qed.
  Lemma weight_app ws1 ws2 : weight (ws1 ++ ws2) = weight ws1 + weight ws2.
  Proof. induction ws1; cbn; lia. Qed.
  Lemma ends_app off ws1 ws2 : ends off (ws1 ++ ws2) = ends off ws1 ++ ends (off + total ws1) ws2.
  Proof.
    revert off. induction ws1 as [|w ws1 IH]; intros off; cbn; [by rewrite Nat.add_0_r|].
    rewrite IH. by rewrite Nat.add_assoc.
  Qed.
  Lemma blk_app rs off ws1 ws2 : blk rs off (ws1 ++ ws2) ↔ blk rs off ws1 ∧ blk rs (off + total ws1) ws2.
  Proof.
    revert off. induction ws1 as [|w ws1 IH]; intros off; cbn [app blk total].
    - rewrite Nat.add_0_r. naive_solver.
    - rewrite IH, Nat.add_assoc. naive_solver.
  Qed.
  Lemma blk_frame rs rs' off ws : (∀ i, off ≤ i < off + total ws → rs' !! i = rs !! i) → blk rs off ws → blk rs' off ws.
  Proof.
    revert off. induction ws as [|w ws IH]; intros off Hf; cbn [blk]; [done|].
    intros (Hw & (x & Hl & Hx & Hx2) & Hch & Hb). cbn in Hf. split_and!; [done| | |].
    - exists x. split; [|done]. rewrite Hf by lia. done.
    - eapply chain_frame; [lia|lia| |done]. intros i Hi. apply Hf. lia.
    - apply IH; [|done]. intros i Hi. apply Hf. lia.
  Qed.
  Lemma ends_split off ws e : e ∈ ends off ws → e < off + total ws →
    ∃ ws1 wl wr ws2, ws = ws1 ++ wl :: wr :: ws2 ∧ e = off + total ws1 + wl.1.
  Proof.
    revert off. induction ws as [|w ws IH]; intros off; cbn; [by intros ?%elem_of_nil|].
    intros [->|He]%elem_of_cons Hlt.
    - destruct ws as [|wr ws]; [cbn in Hlt; lia|]. exists [], w, wr, ws. cbn. split; [done|lia].
    - destruct (IH _ He) as (ws1 & wl & wr & ws2 & -> & ->); [lia|].
      exists (w :: ws1), wl, wr, ws2. split; [done|]. cbn. lia.
  Qed.

  (** The array is divided into blocks with at most [N] keys in all, and the
      remaining items are at the end of one that is not the last. *)
  Definition mergeable (N : nat) rs (L : list (nat * nat * nat)) : Prop :=
    ∃ ws, blk rs 0 ws ∧ total ws = length rs ∧ weight ws ≤ N ∧ NoDup ((λ it, it.1.2) <$> L) ∧
      Forall (λ it, it.2 = S it.1.2 ∧ it.2 ∈ ends 0 ws ∧ it.2 < length rs) L.

  Lemma mergeable_one N rs s p q L : mergeable N rs ((s, p, q) :: L) →
    ∃ rp rn la rl, q = S p ∧ rs !! p = Some rp ∧ rs !! q = Some rn ∧ rs !! la.1 = Some rl ∧
      la.1 = p + la.2 ∧ la.1 < length rs ∧ la.2 + tcount rp ≤ length rs ∧ tnodes rp + tnodes rl ≤ N ∧
      (if 1 <? tcount rn then chain rs (S p) la.2 (tcount rn) ∧ tcount rn ≤ la.2 ∧ la.2 ≤ length rs
       else la = (q, tcount rn)) ∧
      ∀ new, tcount new = la.2 + tcount rp → tnodes new = tnodes rp + tnodes rl →
        mergeable N (<[p := new]> (<[la.1 := new]> rs)) L.
  Proof.
    intros (ws & Hb & Ht & HN & Hnd & HF). apply Forall_cons in HF as [(Hq & He & Hlt) HF]. cbn [fst snd] in *.
    cbn in Hnd. apply NoDup_cons in Hnd as [Hnin Hnd].
    destruct (ends_split _ _ _ He) as (ws1 & [wl cl] & [wr cr] & ws2 & -> & Hqe); [lia|]. cbn [fst] in Hqe.
    set (a := total ws1) in *.
    pose proof Hb as Hb0. apply blk_app in Hb as [Hb1 Hb2]. rewrite Nat.add_0_l in Hb2. fold a in Hb2.
    cbn [blk fst snd] in Hb2.
    destruct Hb2 as (Hwl & (rp & Hrp & Hcp & Hnp0) & Hchl & Hwr & (rl & Hrl & Hcl & Hnl) & Hchr & Hb2).
    rewrite total_app in Ht. cbn [total fst] in Ht. fold a in Ht.
    rewrite weight_app in HN. cbn [weight snd] in HN.
    replace (a + wl - 1) with p in Hrp by lia. replace (a + wl) with (S p) in Hchr by lia.
    assert (∃ rn, rs !! q = Some rn ∧
      (if 1 <? tcount rn then chain rs (S p) wr (tcount rn) ∧ tcount rn ≤ wr ∧ wr ≤ length rs
       else (p + wr, wr) = (q, tcount rn))) as (rn & Hrn & Hla).
    { inversion Hchr as [x Hx Hw Heq|c x Hx Hlt' Hc0 Hle Hch Heq].
      - assert (wr = 1) as Hw1 by congruence. exists x. rewrite Hw1 in *.
        replace (S p + 1 - 1) with q in Hx by lia. split; [done|].
        rewrite Hw. simpl. f_equal; lia.
      - exists x. replace (S p + 1 - 1) with q in Hx by lia. split; [done|].
        destruct (Nat.ltb_spec 1 (tcount x)); [|lia]. split_and!; [done|lia|lia]. }
    exists rp, rn, (p + wr, wr), rl. cbn [fst snd].
    replace (a + wl + wr - 1) with (p + wr) in Hrl by lia.
    split_and!; try done; try lia.
    intros new Hnew Hnn. exists (ws1 ++ (wl + wr, cl + cr) :: ws2).
    assert (p + wr < length rs) as Hlen by (by apply lookup_lt_Some in Hrl).
    set (rs' := <[p := new]> (<[p + wr := new]> rs)).
    assert (∀ i, i ≠ p → i ≠ p + wr → rs' !! i = rs !! i) as Hfr.
    { intros i Hi1 Hi2. unfold rs'. rewrite !list_lookup_insert_ne by done. done. }
    assert (rs' !! p = Some new) as Hnp.
    { unfold rs'. apply list_lookup_insert. rewrite insert_length. lia. }
    assert (rs' !! (p + wr) = Some new) as Hnb.
    { unfold rs'. rewrite list_lookup_insert_ne by lia. apply list_lookup_insert. lia. }
    assert (length rs' = length rs) as Hlr by (unfold rs'; by rewrite !insert_length).
    split_and!.
    - apply blk_app. rewrite Nat.add_0_l. fold a. split.
      + eapply blk_frame; [|done]. fold a. intros i Hi. apply Hfr; lia.
      + cbn [blk fst snd]. split_and!; [lia| | |].
        * exists new. replace (a + (wl + wr) - 1) with (p + wr) by lia. split_and!; [done|lia|lia].
        * eapply (chain_extend rs rs' a wl wr 1 new); try lia; try done.
          -- intros i Hi. apply Hfr; lia.
          -- by replace (a + wl - 1) with p by lia.
          -- by replace (a + wl + wr - 1) with (p + wr) by lia.
        * rewrite Nat.add_assoc. eapply blk_frame; [|done]. intros i Hi. apply Hfr; lia.
    - rewrite total_app. cbn [total fst]. fold a. lia.
    - rewrite weight_app. cbn [weight snd]. lia.
    - done.
    - apply Forall_forall. intros it Hit. rewrite Forall_forall in HF. destruct (HF it Hit) as (H1 & H2 & H3).
      split_and!; [done| |lia].
      assert (it.1.2 ≠ p) as Hne.
      { intros Heq. apply Hnin. rewrite <- Heq. by apply (elem_of_list_fmap_1 (λ it : nat * nat * nat, it.1.2)). }
      rewrite ends_app in H2 |- *. rewrite elem_of_app in H2 |- *. rewrite Nat.add_0_l in *. fold a in H2 |- *.
      cbn [ends fst] in H2 |- *. rewrite !elem_of_cons in H2. rewrite elem_of_cons. rewrite !Nat.add_assoc in *.
      destruct H2 as [H2|[H2|[H2|H2]]]; [by left|lia|right; left; lia|right; right; exact H2].
  Qed.

  Lemma generate_items_pos i rs items : generate_items i rs = Ok items →
    NoDup ((λ it, it.1.2) <$> items) ∧
    Forall (λ it, it.2 = S it.1.2 ∧ i ≤ it.1.2 ∧ it.2 < i + length rs) items.
  Proof.
    revert i items. induction rs as [|r1 rs IH]; intros i items.
    { intros [= <-]. split; constructor. }
    destruct rs as [|r2 rs]; [intros [= <-]; split; constructor|].
    change (generate_items i (r1 :: r2 :: rs)) with
      (s ← adjacent_split 0 (tkey r1) (tkey r2);
       rest ← generate_items (S i) (r2 :: rs);
       Ok (match s with Some s => (s, i, i + 1) :: rest | None => rest end)).
    destruct (adjacent_split 0 (tkey r1) (tkey r2)) as [s|e|]; [|done|done]. cbn [mbind res_bind].
    destruct (generate_items (S i) (r2 :: rs)) as [rest|e|] eqn:Hg; [|done|done]. cbn [mbind res_bind].
    destruct (IH _ _ Hg) as [I1 I2]. clear IH Hg.
    assert (I3 : Forall (λ it : nat * nat * nat, it.2 = S it.1.2 ∧ i ≤ it.1.2 ∧ it.2 < i + length (r1 :: r2 :: rs)) rest).
    { eapply Forall_impl; [exact I2|]. cbn. intros it. lia. }
    intros [= <-]. destruct s as [s|]; [|done]. cbn [fmap list_fmap fst snd]. split.
    - constructor; [|done]. intros (it & He & Hit)%elem_of_list_fmap.
      rewrite Forall_forall in I2. specialize (I2 _ Hit). cbn in I2. lia.
    - constructor; [|done]. cbn. lia.
  Qed.

  (** The keys below a list of references. *)
  Definition tsum rs : nat := foldr (λ r s, tnodes r + s) 0 rs.
  Lemma tsum_app rs1 rs2 : tsum (rs1 ++ rs2) = tsum rs1 + tsum rs2.
  Proof. induction rs1 as [|r rs1 IH]; [done|]. unfold tsum in *. cbn. lia. Qed.
  Lemma tsum_perm rs1 rs2 : rs1 ≡ₚ rs2 → tsum rs1 = tsum rs2.
  Proof. induction 1; unfold tsum in *; cbn in *; lia. Qed.
  Definition ones rs : list (nat * nat) := (λ r, (1, tnodes r)) <$> rs.
  Lemma total_ones rs : total (ones rs) = length rs.
  Proof. induction rs as [|r rs IH]; cbn; [done|]. unfold ones in *. cbn in *. lia. Qed.
  Lemma weight_ones rs : weight (ones rs) = tsum rs.
  Proof. induction rs as [|r rs IH]; cbn; [done|]. unfold ones, tsum in *. lia. Qed.
  Lemma ends_ones rs off e : off < e → e ≤ off + length rs → e ∈ ends off (ones rs).
  Proof.
    revert off. induction rs as [|r rs IH]; intros off H1 H2; [cbn in *; lia|]. cbn.
    destruct (decide (e = off + 1)) as [->|Hne]; [left|right]. apply IH; cbn in *; lia.
  Qed.
  Lemma blk_ones rs0 rs : Forall (λ t, tcount t = 1) rs → blk (rs0 ++ rs) (length rs0) (ones rs).
  Proof.
    revert rs0. induction rs as [|r rs IH]; intros rs0 H1; cbn [ones fmap list_fmap blk]; [done|].
    apply Forall_cons in H1 as [Hr H1].
    assert (Hx : (rs0 ++ r :: rs) !! length rs0 = Some r).
    { rewrite lookup_app_r by lia. by rewrite Nat.sub_diag. }
    cbn [fst snd]. replace (length rs0 + 1 - 1) with (length rs0) by lia. split_and!; [lia|by exists r| |].
    - apply (chain_done _ _ _ r); [|done]. by replace (length rs0 + 1 - 1) with (length rs0) by lia.
    - specialize (IH (rs0 ++ [r]) H1). rewrite app_length, <- app_assoc in IH. exact IH.
  Qed.
  Lemma mergeable_start rs items : generate_items 0 rs = Ok items → Forall (λ t, tcount t = 1) rs →
    mergeable (tsum rs) rs (mjoin (levels_of items)).
  Proof.
    intros Hg H1. destruct (generate_items_pos _ _ _ Hg) as [Hnd HF].
    destruct (levels_of_spec items) as [Hp _].
    exists (ones rs). split_and!.
    - apply (blk_ones [] rs H1).
    - apply total_ones.
    - by rewrite weight_ones.
    - by rewrite Hp.
    - rewrite Hp. eapply Forall_impl; [exact HF|]. cbn. intros it (? & ? & ?). split_and!; [done| |lia].
      apply ends_ones; lia.
  Qed.
  Lemma mergeable_step N rs s p q L : mergeable N rs ((s, p, q) :: L) →
    ∃ rp rn la rl, q = S p ∧ index rs p = Ok rp ∧ index rs q = Ok rn ∧ index rs la.1 = Ok rl ∧
      (if 1 <? tcount rn then lookahead (length rs) rs p (tcount rn) else Ok (q, tcount rn)) = Ok la ∧
      tnodes rp + tnodes rl ≤ N ∧
      ∀ new, tcount new = la.2 + tcount rp → tnodes new = tnodes rp + tnodes rl →
        mergeable N (<[p := new]> (<[la.1 := new]> rs)) L.
  Proof.
    intros Hm. destruct (mergeable_one _ _ _ _ _ _ Hm)
      as (rp & rn & [la w] & rl & -> & Hrp & Hrn & Hrl & Hla & Hlt & Hsum & HN & Hif & Hnew).
    cbn [fst snd] in *. exists rp, rn, (la, w), rl. unfold index. rewrite Hrp, Hrn. cbn [fst snd]. rewrite Hrl.
    split_and!; try done.
    destruct (Nat.ltb_spec 1 (tcount rn)); [|by rewrite Hif]. destruct Hif as (Hch & H1 & H2). rewrite Hla.
    apply lookahead_chain; [lia|lia|lia|done].
  Qed.
End Widths.

(** The keys below a node, as recorded in it. *)
Definition vsize {n} (v : variant n) : nat :=
  match v with VBranch c _ _ _ _ => c | VLeaf _ _ => 1 | VData _ => 0 end.

Section Merge.
  Context {n : nat} (H : list bytes → arr n) (T : list bytes → Prop).
  (** [emits], with a condition on the result. *)
  Fixpoint emitq {A} (R : arr n → node n → Prop) (Q : A → Prop) (p : prog n A) : Prop :=
    match p with
    | Ret a => Q a
    | Throw _ | Panic | Fuel => True
    | Hash cs k => T cs → emitq R Q (k (H cs))
    | Get _ _ | Del _ _ => False
    | Put l nd k => R l nd ∧ emitq R Q k
    | Flush k => emitq R Q k
    end.
  Lemma emitq_bind {A C} R (Q : A → Prop) (Q' : C → Prop) (p : prog n A) (f : A → prog n C) :
    emitq R Q p → (∀ a, Q a → emitq R Q' (f a)) → emitq R Q' (p ≫= f).
  Proof.
    intros Hp Hf. induction p as [a|e| | |cs k IH|l k IH|l nd k IH|l k IH|k IH]; cbn in *; auto; naive_solver.
  Qed.
  Lemma emitq_emits {A} R (Q : A → Prop) (p : prog n A) : emitq R Q p → emits H T R p.
  Proof. induction p as [a|e| | |cs k IH|l k IH|l nd k IH|l k IH|k IH]; cbn; naive_solver. Qed.

  Notation small N := (λ (_ : arr n) nd, vsize (var nd) ≤ N).
  Lemma merge_one_small N rs it L : mergeable N rs (it :: L) →
    emitq (small N) (λ r, mergeable N r.1 L) (merge_one rs it).
  Proof.
    intros Hm. destruct it as [[s p] q].
    destruct (mergeable_step _ _ _ _ _ _ Hm) as (rp & rn & la & rl & -> & H1 & H2 & H3 & H4 & HN & Hnew).
    unfold merge_one. rewrite H1. cbn [lift mbind prog_bind pbind]. rewrite H2. cbn [lift mbind prog_bind pbind].
    rewrite H4. cbn [lift mbind prog_bind pbind fst snd]. rewrite H3. cbn [lift mbind prog_bind pbind].
    cbn [hash mbind prog_bind pbind db_insert mret prog_ret emitq fst snd]. intros _.
    split; [done|]. by apply Hnew.
  Qed.
  Lemma merge_level_small N rs root lv L : mergeable N rs (lv ++ L) →
    emitq (small N) (λ r, mergeable N r.1 L) (merge_level rs root lv).
  Proof.
    revert rs root. induction lv as [|it lv IH]; intros rs root Hm; cbn [merge_level]; [done|].
    eapply emitq_bind; [by apply merge_one_small|]. intros r Hr. by apply IH.
  Qed.
  Lemma merge_all_small N rs root lvs : mergeable N rs (mjoin lvs) →
    emitq (small N) (λ _, True) (merge_all rs root lvs).
  Proof.
    revert rs root. induction lvs as [|lv lvs IH]; intros rs root Hm; cbn [merge_all]; [done|].
    eapply (emitq_bind _ (λ r, mergeable N r.1 (mjoin lvs))).
    - unfold merge_nodes. eapply emitq_bind; [by apply merge_level_small|]. intros r Hr. exact Hr.
    - intros r Hr. by apply IH.
  Qed.
  Lemma create_tree_small rs : Forall (λ t, tcount t = 1) rs → emits H T (small (tsum rs)) (create_tree rs).
  Proof.
    intros H1. unfold create_tree. destruct rs as [|r1 rs]; [done|]. destruct rs as [|r2 rs]; [done|].
    assert (Hp : sort_refs (r1 :: r2 :: rs) ≡ₚ r1 :: r2 :: rs) by apply merge_sort_Permutation.
    rewrite <- Hp in H1. rewrite <- (tsum_perm _ _ Hp). revert H1.
    generalize (sort_refs (r1 :: r2 :: rs)). clear. intros rs' H1.
    destruct (generate_items 0 rs') as [items|e|] eqn:Hi; [|done|done].
    cbn [lift]. change (mbind (M := prog n) ?f (Ret ?x)) with (f x). cbv beta.
    eapply emitq_emits, (emitq_bind _ (λ _, True) (λ _, True)).
    - apply merge_all_small. by apply mergeable_start.
    - by intros [root|] _.
  Qed.
End Merge.

(** ** All calls *)
(** A weaker invariant. *)
Lemma swp_weaken {n} (B : backend n) (H : list bytes → arr n) S (J J' : b_st B → Prop) {A} (p : prog n A) Q s :
  (∀ s, J s → J' s) → swp B H S J p Q s → swp B H S J' p Q s.
Proof.
  intros HJ. revert s. induction p as [a|e| | |cs k IH|l k IH|l nd k IH|l k IH|k IH]; intros s; cbn; auto; naive_solver.
Qed.

Section Count.
  Context {n : nat} (Hn : 0 < n) (H : list bytes → arr n).
  Context (S : list bytes → Prop) (Hinj : inj_on H S).
  Context (B : backend n) {HB : BackendOk B}.
  Context {V : Type} (enc : V → res bytes) (dec : bytes → res V).
  Implicit Types (s : b_st B) (t : trie n) (m : db n) (C D : nat).

  (** Every node is the node of a trie and records at most [C] keys. *)
  Definition sound C m : Prop := shallow H S m ∧ ∀ l nd, m !! l = Some nd → vsize (var nd) ≤ C.
  Definition cinv C s : Prop := sound C (b_vis B s) ∧ sound C (bview s).
  Definition okn C (l : arr n) (nd : node n) : Prop := obj_put H S l nd ∧ vsize (var nd) ≤ C.

  Lemma sound_put C m l nd : sound C m → okn C l nd → sound C (<[l := nd]> m).
  Proof.
    intros [Hs Hc] [(o & Ho & Hw & <- & Hv) Hn']. split; [by apply shallow_put|].
    intros l' nd' [[_ <-]|[_ Hl]]%lookup_insert_Some; [done|by eapply Hc].
  Qed.
  Lemma sound_delete C m l : sound C m → sound C (delete l m).
  Proof.
    intros [Hs Hc]. split; [by apply shallow_delete|]. intros l' nd [_ Hl]%lookup_delete_Some. by eapply Hc.
  Qed.
  Lemma sound_sub C m m' : (∀ l nd, m' !! l = Some nd → m !! l = Some nd) → sound C m → sound C m'.
  Proof. intros Hm [Hs Hc]. split; intros l nd Hl; [apply Hs|eapply Hc]; eauto. Qed.
  Lemma sound_mono C C' m : C ≤ C' → sound C m → sound C' m.
  Proof. intros Hle [Hs Hc]. split; [done|]. intros l nd Hl. specialize (Hc l nd Hl). lia. Qed.
  Lemma cinv_mono C C' s : C ≤ C' → cinv C s → cinv C' s.
  Proof. intros Hle [? ?]. split; by eapply sound_mono. Qed.
  Lemma cinv_init : cinv 0 (b_init B).
  Proof. split; split; intros l nd; rewrite ?bvis_init, ?bview_init, lookup_empty; done. Qed.
  Lemma cinv_put C s l nd : cinv C s → okn C l nd → cinv C (b_put B s l nd).
  Proof.
    intros [H1 H2] Ho. unfold cinv. rewrite bview_put. split; [|by apply sound_put].
    destruct (bvis_put s l nd) as [->| ->]; [done|]. rewrite bview_put. by apply sound_put.
  Qed.
  Lemma cinv_flush C s : cinv C s → cinv C (b_flush B s).
  Proof. intros [_ H2]. unfold cinv. by rewrite bvis_flush, bview_flush. Qed.
  Lemma cinv_drop C s : cinv C s → cinv C (b_drop B s).
  Proof. intros [H1 _]. unfold cinv. by rewrite bvis_drop, bview_drop. Qed.
  Lemma cinv_del C s l : cinv C s → cinv C (b_del B s l).
  Proof.
    intros [H1 H2]. unfold cinv. rewrite bvis_del. split; [by apply sound_delete|].
    eapply sound_sub; [|exact H2]. intros l' nd. apply bview_del_sub.
  Qed.
  Lemma okn_read C s l nd : cinv C s → b_vis B s !! l = Some nd → okn C l nd.
  Proof. intros [[Hs Hc] _] Hl. split; [by apply Hs|by eapply Hc]. Qed.
  Lemma okn_var C l nd r : okn C l nd → okn C l (Node r (var nd)).
  Proof. done. Qed.

  Notation swpS C := (swp B H S (cinv C)).
  (** References: those made from the batch and from nodes. *)
  Definition refq (r : tref n) : Prop := ref_ok H S r ∧ tcount r = 1.
  Lemma okn_branch C l rf count zero one si bk : okn C l (Node rf (VBranch count zero one si bk)) →
    refq (TRef bk l count 1).
  Proof.
    intros [(o & Ho & Hw & <- & Hv) _]. destruct o as [[k e|t1 t2]|k e]; cbn in Hv; simplify_eq.
    split; [|done]. exists (TNode t1 t2). split; [done|]. by split.
  Qed.
  Lemma okn_leaf C l rf lk ld : okn C l (Node rf (VLeaf lk ld)) → refq (TRef lk l 1 1).
  Proof.
    intros [(o & Ho & Hw & <- & Hv) _]. destruct o as [[k e|t1 t2]|k e]; cbn in Hv; simplify_eq.
    split; [|done]. exists (TLeaf lk e). split; [done|]. by split.
  Qed.
  (** The children of a branch record together as many keys as it does. *)
  Lemma okn_children C s l rf count zero one si bk : cinv C s → okn C l (Node rf (VBranch count zero one si bk)) →
    ∃ c0 c1, count = c0 + c1 ∧
      (∀ s' nd, cinv C s' → b_vis B s' !! zero = Some nd → vsize (var nd) = c0) ∧
      (∀ s' nd, cinv C s' → b_vis B s' !! one = Some nd → vsize (var nd) = c1).
  Proof.
    intros _ [(o & Ho & Hw & <- & Hv) _]. destruct o as [[k e|t1 t2]|k e]; cbn in Hv; simplify_eq.
    pose proof Ho as Hp. cbn in Hp. unfold opre_ok in Hp. cbn [opre tpre] in Hp.
    apply Forall_cons in Hp as [_ [Hp1 Hp2]%Forall_app].
    assert (∀ t s' nd, Forall S (tpre H t) → cinv C s' → b_vis B s' !! troot H t = Some nd → vsize (var nd) = tsize t) as Hg.
    { intros t s' nd Ht [[Hs _] _] Hl. destruct (shallow_at H S Hinj _ (OT t) nd Hs Ht Hl) as [-> _].
      by destruct t. }
    exists (tsize t1), (tsize t2). split_and!; [done| |]; intros s' nd Hs Hl; by eapply Hg.
  Qed.

  Lemma insert_leaves_count C vm ks s : 1 ≤ C → cinv C s →
    swpS C (insert_leaves enc vm ks)
      (λ ls s', cinv C s' ∧ Forall refq (zip_with (λ l k, TRef k l 1 1) ls ks) ∧ length ls = length ks) s.
  Proof.
    intros HC. revert s. induction ks as [|k ks IH]; intros s HJ; [cbn; split_and!; [done|constructor|done]|].
    cbn [insert_leaves]. apply swp_bind.
    unfold insert_leaves_one. destruct (vm !! k) as [v|]; [|done].
    apply swp_bind, swp_lift. intros e _.
    cbn [hash get_node db_insert mbind prog_bind pbind mret prog_ret swp]. intros HS1 HS2.
    assert (∀ s r, cinv C s → cinv C (b_put B s (H (data_in k e)) (Node r (VData e)))) as HP1.
    { intros s1 r Hs1. apply cinv_put; [done|]. split; [|cbn; lia]. exists (OD k e). split_and!; try done. by repeat constructor. }
    assert (∀ s r, cinv C s → cinv C (b_put B s (H (leaf_in k (H (data_in k e)))) (Node r (VLeaf k (H (data_in k e)))))) as HP2.
    { intros s1 r Hs1. apply cinv_put; [done|]. split; [|cbn; lia]. exists (OT (TLeaf k e)). split_and!; try done. by repeat constructor. }
    match goal with |- cinv C ?a ∧ _ => assert (HJ1 : cinv C a) by (by apply HP1) end. split; [done|].
    match goal with |- cinv C ?a ∧ _ => assert (HJ2 : cinv C a) by (by apply HP2) end. split; [done|].
    apply swp_bind. eapply swp_mono; [|by apply IH]. cbn beta.
    intros ls s' (HJ' & Hls & Hlen). cbn. split_and!; [done| |lia]. constructor; [|done].
    split; [|done]. exists (TLeaf k e). split; [done|]. split; [done|]. by repeat constructor.
  Qed.
  Lemma insert_leaf_count C l s : cinv C s → swpS C (insert_leaf l) (λ _ s', cinv C s') s.
  Proof.
    intros HJ. unfold insert_leaf. cbn [get_node mbind prog_bind pbind swp].
    destruct (b_vis B s !! l) as [nd|] eqn:Hl; [|done]. cbn [db_insert swp].
    assert (cinv C (b_put B s l (Node (refs nd + 1) (var nd)))) by (apply cinv_put; [done|by eapply okn_var, okn_read]).
    done.
  Qed.
  Definition okcell C (c : cell) : Prop := okn C (cloc c) (cnode c).
  Definition csum (q : list (cell (n := n))) : nat := foldr (λ c a, vsize (var (cnode c)) + a) 0 q.
  Lemma split_nodes_count C d b ks c s : cinv C s →
    (∀ s' nd, cinv C s' → b_vis B s' !! b = Some nd → vsize (var nd) = c) →
    swpS C (split_nodes (n := n) d b ks)
      (λ r s', cinv C s' ∧ match r with
                           | inr ce => okcell C ce ∧ vsize (var (cnode ce)) = c
                           | inl r => refq r ∧ tnodes r = c
                           end) s.
  Proof.
    intros HJ Hc. unfold split_nodes. cbn [get_node mbind prog_bind pbind swp].
    destruct (b_vis B s !! b) as [[rf v]|] eqn:Hl; [|done].
    pose proof (okn_read C s b _ HJ Hl) as Hok. specialize (Hc _ _ HJ Hl). cbn [var] in Hc.
    pose proof (cinv_put C s b _ HJ (okn_var C b _ (rf + 1) Hok)) as HJ'.
    destruct ks as [|k ks]; [|done]. cbn [var refs] in *.
    destruct v; cbn [db_insert mbind prog_bind pbind swp mret prog_ret]; [| |done].
    - split; [done|]. split; [done|]. split; [by eapply okn_branch|done].
    - split; [done|]. split; [done|]. split; [by eapply okn_leaf|done].
  Qed.
  Lemma push_split_count C c r acc q :
    match r with
    | inr ce => okcell C ce ∧ vsize (var (cnode ce)) = c
    | inl r => refq r ∧ tnodes r = c
    end → Forall refq acc → Forall (okcell C) q →
    Forall refq (push_split r acc q).1 ∧ Forall (okcell C) (push_split r acc q).2 ∧
    tsum (push_split r acc q).1 + csum (push_split r acc q).2 = tsum acc + csum q + c.
  Proof.
    intros Hr Ha Hq. destruct r; cbn [push_split fst snd]; destruct Hr as [Hr Hc].
    - split_and!; [|done|].
      + apply Forall_app. split; [done|by apply Forall_singleton].
      + rewrite tsum_app. unfold tsum at 2. cbn. lia.
    - split_and!; [done|by constructor|]. cbn. unfold csum. lia.
  Qed.
  Lemma traverse_count C D N fuel km acc q s : cinv C s → Forall (okcell C) q → Forall refq acc →
    tsum acc + csum q ≤ N →
    swpS C (traverse_tree D fuel km acc q) (λ rs s', cinv C s' ∧ Forall refq rs ∧ tsum rs ≤ N) s.
  Proof.
    revert acc q s. induction fuel as [|fuel IH]; intros acc [|c q] s HJ Hq Ha HN; try done.
    { cbn in HN |- *. split_and!; try done. lia. }
    { cbn in HN |- *. split_and!; try done. lia. }
    apply Forall_cons in Hq as [Hc Hq]. cbn [traverse_tree].
    destruct (D <? cdepth c); [done|].
    destruct c as [lc cks [rf v] dp]. unfold okcell in Hc. cbn [Model.cloc Model.cnode var refs ckeys cdepth csum foldr] in *.
    fold (csum q) in HN.
    destruct v as [count zero one si bk|lk ld|e] eqn:Hv; [| |done].
    - apply swp_bind, swp_lift. intros mi _.
      assert (∀ ds, swpS C (if (mi <? si) && (length ds =? 0) then
                    db_insert lc (Node (rf + 1) (VBranch count zero one si bk)) ;;
                    traverse_tree D fuel km (acc ++ [TRef bk lc count 1]) q
                  else
                    zo ← lift (split_pairs ds si);
                    r1 ← split_nodes dp one zo.2;
                    let '(acc, q) := push_split r1 acc q in
                    r0 ← split_nodes dp zero zo.1;
                    let '(acc, q) := push_split r0 acc q in
                    traverse_tree D fuel km acc q) (λ rs s', cinv C s' ∧ Forall refq rs ∧ tsum rs ≤ N) s) as Hds.
      { intros ds. destruct ((mi <? si) && (length ds =? 0)).
        - cbn [db_insert mbind prog_bind pbind swp].
          pose proof (cinv_put C s lc _ HJ (okn_var C lc _ (rf + 1) Hc)) as HJ'. cbn [var refs] in HJ'.
          split; [done|]. apply IH; [done|done| |].
          + apply Forall_app. split; [done|]. apply Forall_singleton; by eapply okn_branch.
          + rewrite tsum_app. unfold tsum at 2. cbn in *. lia.
        - destruct (okn_children C s _ _ _ _ _ _ _ HJ Hc) as (c0 & c1 & -> & Hc0 & Hc1).
          apply swp_bind, swp_lift. intros zo _. apply swp_bind.
          eapply swp_mono; [|by apply (split_nodes_count C dp one zo.2 c1)]. intros r1 s1 [HJ1 Hr1]. cbn beta.
          destruct (push_split_count C c1 r1 acc q Hr1 Ha Hq) as (Ha1 & Hq1 & HN1).
          destruct (push_split r1 acc q) as [acc1 q1]. cbn [fst snd] in *.
          apply swp_bind. eapply swp_mono; [|by apply (split_nodes_count C dp zero zo.1 c0)]. intros r0 s0 [HJ0 Hr0]. cbn beta.
          destruct (push_split_count C c0 r0 acc1 q1 Hr0 Ha1 Hq1) as (Ha2 & Hq2 & HN2).
          destruct (push_split r0 acc1 q1) as [acc2 q2]. cbn [fst snd] in *.
          apply IH; [done|done|done|]. cbn in HN. lia. }
      apply swp_bind. destruct (mi <? si).
      + apply swp_lift. intros ds _. apply Hds.
      + apply Hds.
    - cbn [vsize] in HN. destruct (km !! lk) as [l|].
      + destruct (decide (l = lc)); [|apply IH; try done; lia].
        apply swp_bind. eapply swp_mono; [|by apply insert_leaf_count]. intros ? s' HJ'. apply IH; try done; lia.
      + apply swp_bind. eapply swp_mono; [|by apply insert_leaf_count]. intros ? s' HJ'. apply IH; [done|done| |].
        * apply Forall_app. split; [done|]. apply Forall_singleton; by eapply okn_leaf.
        * rewrite tsum_app. unfold tsum at 2. cbn. lia.
  Qed.
  Lemma create_tree_count C rs s : cinv C s → Forall refq rs → tsum rs ≤ C →
    swpS C (create_tree rs) (λ _ s', cinv C s') s.
  Proof.
    intros HJ Hrs HN.
    apply (emits_swp H S B (cinv C) (λ l nd, obj_put H S l nd ∧ vsize (var nd) ≤ tsum rs)); [| |done|].
    - intros s' l nd HJ' [Ho Hv]. apply cinv_put; [done|]. split; [done|lia].
    - intros s' HJ'. by apply cinv_flush.
    - apply emits_and.
      + apply (create_tree_obj Hn H S Hinj S); [done|]. eapply Forall_impl; [exact Hrs|]. by intros r [? _].
      + apply create_tree_small. eapply Forall_impl; [exact Hrs|]. by intros r [_ ?].
  Qed.
  Lemma insert_sorted_count C D prev ks vm s : 1 ≤ C → cinv C s →
    swpS (C + length ks) (insert_sorted enc D prev ks vm) (λ _ s', cinv (C + length ks) s') s.
  Proof.
    intros H1 HJ.
    assert (∀ s, cinv C s → cinv (C + length ks) s) as Hup by (intros s'; apply cinv_mono; lia).
    assert (∀ ls, length ls = length ks → tsum (zip_with (λ l k, TRef k l 1 1) ls ks) = length ks) as Hsum.
    { clear. induction ks as [|k ks IH]; intros [|l ls] Hl; cbn in *; try done. unfold tsum in *. rewrite IH; lia. }
    unfold insert_sorted. apply swp_bind.
    eapply swp_weaken; [exact Hup|]. eapply swp_mono; [|by apply insert_leaves_count]. intros ls s1 (HJ1 & Hls & Hlen).
    apply swp_bind. destruct prev as [root|].
    - unfold generate_treerefs. cbn [get_node mbind prog_bind pbind swp].
      destruct (b_vis B s1 !! root) as [nd|] eqn:Hr; [|done].
      pose proof (okn_read C s1 root nd HJ1 Hr) as Hok.
      eapply swp_weaken; [exact Hup|]. eapply swp_mono; [|apply (traverse_count C D C)].
      + intros ps s2 (HJ2 & Hps & Hsz). apply create_tree_count; [by apply Hup|by apply Forall_app|].
        rewrite tsum_app, Hsum by done. lia.
      + done.
      + by apply Forall_singleton.
      + constructor.
      + cbn. destruct Hok as [_ ?]. lia.
    - cbn. apply create_tree_count; [by apply Hup| |].
      + by rewrite app_nil_r.
      + rewrite app_nil_r, Hsum by done. lia.
  Qed.

  (** The keys a call inserts. *)
  Lemma readonly_count C {A} (p : prog n A) s : readonly p → cinv C s → swpS C p (λ _ s', cinv C s') s.
  Proof.
    intros Hp HJ. induction p as [a|e| | |cs k IH|l k IH|l nd k IH|l k IH|k IH]; cbn in *; auto; try done.
  Qed.
  Lemma exec_count C c s : 1 ≤ C → cinv C s →
    swpS (C + keys_of c) (exec enc dec c) (λ _ s', cinv (C + keys_of c) s') s.
  Proof.
    intros H1 HJ. destruct c as [D prev ks vs|D prev k v|D root ks|D root k|D root k|root k v proof]; cbn [exec keys_of].
    - apply swp_bind. eapply (swp_mono _ _ _ _ _ (λ _ s', cinv (C + length ks) s')); [done|].
      unfold insert. destruct (negb _); [done|]. destruct (_ || _); [done|].
      rewrite <- (sort_keys_length ks). by apply insert_sorted_count.
    - apply swp_bind. eapply (swp_mono _ _ _ _ _ (λ _ s', cinv (C + 1) s')); [done|].
      by apply (insert_sorted_count C D prev [k] _ s H1 HJ).
    - rewrite Nat.add_0_r. apply readonly_count; [|done]. apply readonly_bind; [apply readonly_get|done].
    - rewrite Nat.add_0_r. apply readonly_count; [|done]. apply readonly_bind; [apply readonly_get_one|done].
    - rewrite Nat.add_0_r. apply readonly_count; [|done]. apply readonly_bind; [apply readonly_prove|done].
    - rewrite Nat.add_0_r. apply readonly_count; [|done]. apply readonly_verify.
  Qed.
  Lemma remove_count C fuel q s : cinv C s → swpS C (remove_loop fuel q) (λ _ s', cinv C s') s.
  Proof.
    revert q s. induction fuel as [|fuel IH]; intros [|l q] s HJ; cbn [remove_loop].
    1,3: cbn; split; by apply cinv_flush.
    { done. }
    cbn [get_node mbind prog_bind pbind swp].
    destruct (b_vis B s !! l) as [nd|] eqn:Hl; [|by apply IH].
    destruct (refs nd - 1 =? 0).
    - pose proof (cinv_del C s l HJ) as HJ'.
      destruct (var nd); cbn [db_remove mbind prog_bind pbind swp]; (split; [done|by apply IH]).
    - cbn [db_insert mbind prog_bind pbind swp].
      pose proof (cinv_put C s l _ HJ (okn_var C l nd (refs nd - 1) (okn_read C s l nd HJ Hl))) as HJ'.
      split; [done|by apply IH].
  Qed.
End Count.

(** ** Databases in use *)
Section UsedInv.
  Context {n : nat} (Hn : 0 < n) (B : backend n) {HB : BackendOk B} (H : list bytes → arr n).
  Context {V : Type} (enc : V → res bytes) (dec : bytes → res V).
  Implicit Types (st : b_st B) (lg L : list (list bytes)).

  Lemma call_inv L c C st : no_collision H L → (∀ x, x ∈ hlog B H (exec enc dec c) st → x ∈ L) → 1 ≤ C →
    cinv H (λ x, x ∈ L) B C st → Forall (cinv H (λ x, x ∈ L) B (C + keys_of c)) (states B H (exec enc dec c) st).
  Proof.
    intros Hc HL H1 HJ. eapply (swp_states B H (λ x, x ∈ L)); [|by apply (exec_count Hn H _ Hc B)|done].
    eapply cinv_mono; [..|exact HJ]; lia.
  Qed.
  Lemma remove_inv L r C st : cinv H (λ x, x ∈ L) B C st →
    Forall (cinv H (λ x, x ∈ L) B C) (states B H (remove_prog B st r) st).
  Proof.
    intros HJ. eapply (swp_states B H (λ x, x ∈ L)); [done|by apply remove_count|].
    unfold remove_prog, remove. rewrite remove_no_hash. by intros x ?%elem_of_nil.
  Qed.
  Theorem used_inv L st lg K W : used B H enc dec st lg K W → no_collision H L → (∀ x, x ∈ lg → x ∈ L) →
    cinv H (λ x, x ∈ L) B (1 + K) st ∧ refs_le B W st.
  Proof.
    intros Hu Hc. induction Hu as [|st lg K W c st' Hu IH Hst|st lg K W r st' Hu IH Hst|st lg K W Hu IH]; intros HL.
    - split; [|apply refs_le_init]. eapply cinv_mono; [..|apply cinv_init]; lia.
    - destruct IH as [HJ Hr]; [intros x Hx; apply HL, elem_of_app; by left|]. split.
      + assert (∀ x, x ∈ hlog B H (exec enc dec c) st → x ∈ L) as HL' by (intros x Hx; apply HL, elem_of_app; by right).
        pose proof (call_inv L c (1 + K) st Hc HL' ltac:(lia) HJ) as Hs. rewrite Forall_forall in Hs. exact (Hs _ Hst).
      + pose proof (exec_refs B H enc dec c W st Hr) as Hs. apply Forall_cons in Hs as [_ Hs].
        rewrite Forall_forall in Hs. exact (Hs _ Hst).
    - destruct (IH HL) as [HJ Hr]. split.
      + pose proof (remove_inv L r (1 + K) st HJ) as Hs. rewrite Forall_forall in Hs. exact (Hs _ Hst).
      + pose proof (remove_refs B H r W st Hr) as Hs. apply Forall_cons in Hs as [_ Hs].
        rewrite Forall_forall in Hs. exact (Hs _ Hst).
    - destruct (IH HL) as [HJ [Hr _]]. split; [by apply cinv_drop|]. split; intros l nd; rewrite ?bvis_drop, ?bview_drop; apply Hr.
  Qed.
End UsedInv.

Section Bounded.
  Context {n : nat} (Hn : 0 < n) (B : backend n) {HB : BackendOk B} (H : list bytes → arr n).
  Context {V : Type} (enc : V → res bytes) (dec : bytes → res V).
  Theorem numbers_bounded st lg K W : used B H enc dec st lg K W → no_collision H lg → ∀ l nd, b_vis B st !! l = Some nd →
    refs nd ≤ W ∧ match var nd with VBranch c _ _ _ _ => c ≤ 1 + K | _ => True end.
  Proof.
    intros Hu Hc l nd Hl. destruct (used_inv Hn B H enc dec lg st lg K W Hu Hc ltac:(done)) as [[[_ Hs] _] [Hr _]].
    specialize (Hs l nd Hl). split; [by eapply Hr|]. by destruct (var nd).
  Qed.
End Bounded.
