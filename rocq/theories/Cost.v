(** * Storage used and work done *)
From Coq Require Import Strings.Byte NArith.
From stdpp Require Import prelude countable gmap sorting strings.
From Verif Require Import Model Bits Spec Util Trie Store Logic Build Evol Route Reads Insert Update Safe Get
  Hist Claims RefCount RcInsert RcRemove Total Live Regrow Weak Depth Shape Need Exact.

Local Open Scope nat_scope.

(** ** The nodes of a tree *)
Section Objs.
  Context {n : nat} (H : list bytes → arr n).
  Implicit Types (m : db n) (t : trie n) (o : obj n).

  Lemma tobjs_length t : length (tobjs t) + 1 = 3 * tsize t.
  Proof. induction t as [|l IHl r IHr]; cbn [tobjs tsize length]; [done|]. rewrite app_length. lia. Qed.
  Lemma below_objs m t y : stored H m t → rtc (child m) (troot H t) y ↔ ∃ o, osub o t ∧ oloc H o = y.
  Proof.
    intros Hst. split.
    - intros Hr. assert (∀ x, rtc (child m) x y → (∃ o, osub o t ∧ oloc H o = x) → ∃ o, osub o t ∧ oloc H o = y) as Hgen.
      { clear Hr. induction 1 as [|x x' y Hc _ IH]; [done|]. intros (o & Ho & <-). apply IH.
        destruct Hc as (nd & Hl & Hx).
        assert (has m (oloc H o) (ovar H o)) as Hh.
        { destruct o as [p|k e]; cbn [osub oloc ovar] in *.
          - apply stored_root. by eapply subtrie_stored.
          - eapply subtrie_stored in Hst; [|exact Ho]. by destruct Hst. }
        apply has_lookup in Hh as [rf Hh]. rewrite Hl in Hh. injection Hh as ->. cbn [var] in Hx.
        rewrite okids_children in Hx. apply elem_of_list_fmap in Hx as (o' & -> & Ho').
        exists o'. split; [by eapply okids_osub|done]. }
      apply (Hgen (troot H t)); [done|]. exists (OT t). split; [constructor|done].
    - intros (o & Ho & <-). by apply stored_below.
  Qed.
End Objs.

Section Size.
  Context {n : nat} (Hn : 0 < n) (B : backend n) {HB : BackendOk B} (H : list bytes → arr n).
  Context {V : Type} (enc : V → res bytes) (dec : bytes → res V) (Hcodec : codec_ok enc dec).
  Implicit Types (st : b_st B) (lg L : list (list bytes)) (k r : arr n) (ks : list (arr n)) (vs : list V).
  Implicit Types (M : gmap (arr n) V) (hs : list (arr n * gmap (arr n) V)) (t l : trie n).
  Notation Sof L := (λ x, x ∈ L).

  Lemma handle_nodes L m r M : inj_on H (Sof L) → handle_ok H enc L m (r, M) →
    ∃ ls, NoDup ls ∧ length ls + 1 = 3 * size M ∧ ∀ x : arr n, x ∈ ls ↔ rtc (child m) r x.
  Proof.
    intros Hinj (t & Hr & Hwf & Hst & Hpre & He). cbn [fst snd] in *. subst r.
    exists (locs H [OT t]). split_and!.
    - apply (locs_tree H (Sof L) Hinj); [by apply twf_nodup|done].
    - unfold locs. cbn. rewrite app_nil_r, fmap_length, tobjs_length, (encs_size enc M t Hwf He), tkeys_length. done.
    - intros x. rewrite (below_objs H m t x Hst). unfold locs. cbn. rewrite app_nil_r, elem_of_list_fmap.
      setoid_rewrite elem_of_tobjs. naive_solver.
  Qed.

  (** C68 *)
  Theorem tree_size st lg r M : live B H enc dec st lg r M → no_collision H lg →
    ∃ ls, NoDup ls ∧ length ls + 1 = 3 * size M ∧ ∀ x : arr n, x ∈ ls ↔ rtc (child (b_vis B st)) r x.
  Proof using Hn Hcodec HB.
    intros Hl Hc. eapply handle_nodes; [exact Hc|]. by eapply (live_handle Hn B H enc dec Hcodec).
  Qed.
  Theorem store_exact st lg hs (x : arr n) : rhist B H enc dec st lg hs → no_collision H lg →
    is_Some (b_vis B st !! x) ↔ ∃ r M, (r, M) ∈ hs ∧ rtc (child (b_vis B st)) r x.
  Proof using Hn Hcodec HB.
    intros Hh Hc. destruct (rhist_inv Hn B H enc dec Hcodec lg st lg hs Hc Hh ltac:(done)) as [hts Hi].
    split.
    - intros [nd Hx]. destruct (linv_proper _ _ _ _ _ _ _ _ Hi _ _ Hx) as (o & Ho & _ & <- & _).
      destruct (alive H (Sof lg) Hc True (b_vis B st) hts I (linv_proper _ _ _ _ _ _ _ _ Hi)
        (linv_rc _ _ _ _ _ _ _ _ Hi) (linv_pre _ _ _ _ _ _ _ _ Hi) o Ho) as (t & Ht & Hs); [by exists nd|].
      pose proof (linv_stored _ _ _ _ _ _ _ _ t Hc Hi Ht) as Hst.
      apply elem_of_list_lookup in Ht as [i Ht].
      destruct (Forall2_lookup_r _ _ _ _ _ (linv_trees _ _ _ _ _ _ _ _ Hi) Ht) as ([r M] & Hr & (Heq & _)).
      cbn [fst] in Heq. subst r. exists (troot H t), M. split; [by eapply elem_of_list_lookup_2|].
      by apply stored_below.
    - intros (r & M & Hin & Hr). apply elem_of_list_lookup in Hin as [i Hin].
      destruct (Forall2_lookup_l _ _ _ _ _ (linv_trees _ _ _ _ _ _ _ _ Hi) Hin) as (t & Ht & (Heq & _)).
      cbn [fst] in Heq. subst r. apply elem_of_list_lookup_2 in Ht.
      pose proof (linv_stored _ _ _ _ _ _ _ _ t Hc Hi Ht) as Hst.
      apply (below_objs H _ _ _ Hst) in Hr as (o & Ho & <-). by eapply osub_stored.
  Qed.
  Lemma size_below (m : db n) (ls : list (arr n)) : (∀ x, is_Some (m !! x) → x ∈ ls) → size m ≤ length ls.
  Proof.
    intros Hm. rewrite <- size_dom. transitivity (size (list_to_set ls : gset (arr n))).
    - apply subseteq_size. intros x Hx%elem_of_dom. apply elem_of_list_to_set. by apply Hm.
    - clear Hm. induction ls as [|y ls IH]; [done|]. cbn [list_to_set length].
      rewrite size_union_alt, size_singleton.
      assert (size ((list_to_set ls : gset (arr n)) ∖ {[y]}) ≤ size (list_to_set ls : gset (arr n))); [|lia].
      apply subseteq_size. set_solver.
  Qed.
  Theorem store_size st lg hs : rhist B H enc dec st lg hs → no_collision H lg →
    size (b_vis B st) ≤ sum_list_with (λ h, 3 * size h.2 - 1) hs ∧
    (∀ r M, hs = [(r, M)] → size (b_vis B st) + 1 = 3 * size M).
  Proof using Hn Hcodec HB.
    intros Hh Hc. pose proof (λ x, store_exact st lg hs x Hh Hc) as Hex.
    assert (∀ r M, (r, M) ∈ hs → ∃ ls, NoDup ls ∧ length ls + 1 = 3 * size M ∧
      ∀ x : arr n, x ∈ ls ↔ rtc (child (b_vis B st)) r x) as Hls.
    { intros r M Hin. apply (tree_size st lg r M); [|done]. exists hs. split; [right|done].
      by apply rhist_whist. }
    split.
    - assert (∃ ls, (∀ x, x ∈ ls ↔ ∃ r M, (r, M) ∈ hs ∧ rtc (child (b_vis B st)) r x) ∧
        length ls = sum_list_with (λ h, 3 * size h.2 - 1) hs) as (ls & Hl & <-).
      { clear Hex Hh. induction hs as [|[r M] hs IH].
        - exists []. split; [|done]. intros x. split; [by intros ?%elem_of_nil|]. by intros (r & M & ?%elem_of_nil & _).
        - destruct IH as (l2 & H2 & E2); [intros; apply Hls; by right|].
          destruct (Hls r M) as (l1 & _ & E1 & H1); [by left|].
          exists (l1 ++ l2). split.
          + intros x. rewrite elem_of_app, H1, H2. setoid_rewrite elem_of_cons. naive_solver.
          + rewrite app_length. cbn [sum_list_with snd]. lia. }
      apply size_below. intros x Hx. by apply Hl, Hex.
    - intros r M ->. destruct (Hls r M) as (ls & Hnd & Hlen & Hl); [left|].
      rewrite <- Hlen. f_equal. apply Nat.le_antisymm.
      + apply size_below. intros x Hx. apply Hl. apply Hex in Hx as (r' & M' & Hin & Hr).
        apply elem_of_list_singleton in Hin. by injection Hin as -> ->.
      + rewrite <- size_dom, <- (size_list_to_set (C := gset (arr n)) ls Hnd). apply subseteq_size.
        intros x Hx%elem_of_list_to_set. apply elem_of_dom, Hex. exists r, M. split; [left|by apply Hl].
  Qed.
End Size.

(** ** Counting hash computations *)
Section HashCount.
  Context {n : nat}.
  (** On a normal return of [a] with [c] computations made, [Q a c]. *)
  Fixpoint hcount {A} (p : prog n A) (c : nat) (Q : A → nat → Prop) : Prop :=
    match p with
    | Ret a => Q a c
    | Throw _ | Panic | Fuel => True
    | Hash cs k => ∀ h, hcount (k h) (c + 1) Q
    | Get l k => ∀ o, hcount (k o) c Q
    | Put l nd k => hcount k c Q
    | Del l k => hcount k c Q
    | Flush k => hcount k c Q
    end.
  Lemma hcount_mono {A} (p : prog n A) c (Q Q' : A → nat → Prop) :
    (∀ a c, Q a c → Q' a c) → hcount p c Q → hcount p c Q'.
  Proof. intros HQ. revert c. induction p as [a|e| | |cs k IH|l k IH|l nd k IH|l k IH|k IH]; intros c; cbn; auto. Qed.
  Lemma hcount_bind {A C} (p : prog n A) (f : A → prog n C) c Q :
    hcount p c (λ a c', hcount (f a) c' Q) → hcount (p ≫= f) c Q.
  Proof.
    change (p ≫= f) with (pbind f p). revert c.
    induction p as [a|e| | |cs k IH|l k IH|l nd k IH|l k IH|k IH]; intros c; cbn; auto.
  Qed.
  Lemma hcount_lift {A} (r : res A) c (Q : A → nat → Prop) : (∀ a, r = Ok a → Q a c) → hcount (lift r) c Q.
  Proof. destruct r; cbn; auto. Qed.
  Lemma hcount_run {A} (B : backend n) (H : list bytes → arr n) (p : prog n A) c Q st a :
    hcount p c Q → out B H p st = ROk a → Q a (c + length (hlog B H p st)).
  Proof.
    unfold out, hlog. revert c st.
    induction p as [b|e| | |cs k IH|l k IH|l nd k IH|l k IH|k IH]; intros c st; cbn [hcount run fst snd]; try done.
    - intros HQ [= ->]. cbn. by rewrite Nat.add_0_r.
    - intros Hk. specialize (IH (H cs) (c + 1) st (Hk (H cs))).
      destruct (run B H (k (H cs)) st) as [[o s] lg]. cbn in *. intros Ho. specialize (IH Ho).
      by replace (c + S (length lg)) with (c + 1 + length lg) by lia.
    - intros Hk. apply IH, Hk.
    - apply IH.
    - apply IH.
    - apply IH.
  Qed.

  Lemma merge_one_hcount rs it c : hcount (merge_one rs it) c (λ r c', c' = c + 1 ∧ length r.1 = length rs).
  Proof.
    destruct it as [[sp p] q]. unfold merge_one.
    apply hcount_bind, hcount_lift. intros rp _.
    apply hcount_bind, hcount_lift. intros rn _.
    apply hcount_bind, hcount_lift. intros la _.
    apply hcount_bind, hcount_lift. intros rl _.
    cbn. intros h. split; [done|]. by rewrite !insert_length.
  Qed.
  Lemma merge_level_hcount level rs root c :
    hcount (merge_level rs root level) c (λ _ c', c' = c + length level).
  Proof.
    revert rs root c. induction level as [|it level IH]; intros rs root c; cbn [merge_level]; [cbn; lia|].
    apply hcount_bind. eapply hcount_mono; [|apply merge_one_hcount]. intros r c' [-> _].
    eapply hcount_mono; [|apply IH]. intros ? ? ->. cbn. lia.
  Qed.
  Lemma merge_all_hcount levels rs root c :
    hcount (merge_all rs root levels) c (λ _ c', c' = c + length (mjoin levels)).
  Proof.
    revert rs root c. induction levels as [|level levels IH]; intros rs root c; cbn [merge_all]; [cbn; lia|].
    apply hcount_bind. unfold merge_nodes. apply hcount_bind.
    eapply hcount_mono; [|apply merge_level_hcount]. intros r c' ->. cbn.
    eapply hcount_mono; [|apply IH]. intros ? ? ->.
    by rewrite app_length, Nat.add_assoc.
  Qed.
  Lemma adjacent_some j (l r : bytes) o : length l = length r → l ≠ [] → adjacent_split j l r = Ok o → is_Some o.
  Proof.
    revert j r. induction l as [|x l IH]; intros j [|y r] Hl Hne; try done. cbn [adjacent_split].
    destruct (decide (x = y)); [|intros [= <-]; eauto].
    destruct l as [|x' l]; [done|]. apply IH; [by injection Hl|done].
  Qed.
  Lemma generate_items_length (Hn : 0 < n) (rs : list (tref n)) i its : rs ≠ [] → generate_items i rs = Ok its →
    length its + 1 = length rs.
  Proof.
    revert i its. induction rs as [|r1 rs IH]; intros i its Hne; [done|]. destruct rs as [|r2 rs].
    { cbn. by intros [= <-]. }
    change (generate_items i (r1 :: r2 :: rs)) with
      (s ← adjacent_split 0 (tkey r1) (tkey r2); rest ← generate_items (S i) (r2 :: rs);
       Ok (match s with Some s => (s, i, i + 1) :: rest | None => rest end)).
    destruct (adjacent_split 0 (tkey r1) (tkey r2)) as [s|er|] eqn:Hs; [|done|done].
    assert (is_Some s) as [s0 ->].
    { eapply adjacent_some; [| |exact Hs]; [by rewrite !arr_length|].
      intros Hnil. apply (f_equal length) in Hnil. rewrite arr_length in Hnil. cbn in Hnil. lia. }
    cbn [mbind res_bind]. destruct (generate_items (S i) (r2 :: rs)) as [rest|er|] eqn:Hr; [|done|done].
    intros [= <-]. specialize (IH (S i) rest ltac:(done) Hr). cbn [length] in *. lia.
  Qed.
  Lemma create_tree_hcount (Hn : 0 < n) (rs : list (tref n)) c :
    hcount (create_tree rs) c (λ _ c', c' + 1 = c + length rs).
  Proof.
    unfold create_tree. destruct rs as [|r1 [|r2 rs]]; [done|cbn; lia|].
    set (rs' := r1 :: r2 :: rs). assert (length (sort_refs rs') = length rs') as Hl.
    { unfold sort_refs. apply Permutation_length, merge_sort_Permutation. }
    apply hcount_bind, hcount_lift. intros its Hits.
    apply generate_items_length in Hits; [|done|].
    2:{ intros Hnil. rewrite Hnil in Hl. done. }
    apply hcount_bind. eapply hcount_mono; [|apply merge_all_hcount]. intros o c' ->.
    destruct (levels_of_spec its) as (Hp & _). apply Permutation_length in Hp. rewrite Hp.
    destruct o; [|done]. cbn [hcount mret prog_ret]. lia.
  Qed.
End HashCount.

Section InsertCount.
  Context {n : nat} {V : Type} (encode : V → res bytes) (max_depth : nat).
  Implicit Types (k : arr n) (ks : list (arr n)) (vm : gmap (arr n) V).

  Lemma insert_leaves_hcount vm ks c :
    hcount (insert_leaves encode vm ks) c (λ ls c', c' = c + 2 * length ks ∧ length ls = length ks).
  Proof.
    revert c. induction ks as [|k ks IH]; intros c; cbn [insert_leaves]; [cbn; lia|].
    apply hcount_bind. unfold insert_leaves_one. destruct (vm !! k) as [v|]; [|done].
    apply hcount_bind, hcount_lift. intros e _. cbn. intros d l _ _.
    apply hcount_bind. eapply hcount_mono; [|apply IH]. intros ls c' [-> Hl]. cbn. lia.
  Qed.
  Lemma insert_leaf_hcount (l : arr n) c : hcount (insert_leaf l) c (λ _ c', c' = c).
  Proof. unfold insert_leaf. cbn. intros [nd|]; done. Qed.
  Lemma split_nodes_hcount d (b : arr n) ks c : hcount (split_nodes d b ks) c (λ _ c', c' = c).
  Proof.
    unfold split_nodes. cbn. intros [nd|]; [|done]. destruct ks; [|done]. by destruct (var nd).
  Qed.
  Lemma traverse_hcount km fuel acc (q : list (cell (n := n))) c :
    hcount (traverse_tree max_depth fuel km acc q) c (λ _ c', c' = c).
  Proof.
    revert acc q c. induction fuel as [|fuel IH]; intros acc [|cl q] c; cbn [traverse_tree]; try done.
    destruct (max_depth <? cdepth cl); [done|]. destruct (var (cnode cl)) as [count zero one si bk|lk ld|e]; [| |done].
    - apply hcount_bind, hcount_lift. intros m _. apply hcount_bind.
      eapply hcount_mono with (Q := λ _ c', c' = c).
      + intros ds c' ->. destruct (_ && _); [cbn; apply IH|].
        apply hcount_bind, hcount_lift. intros zo _.
        apply hcount_bind. eapply hcount_mono; [|apply split_nodes_hcount]. intros r1 c' ->. cbn beta.
        destruct (push_split r1 acc q) as [acc1 q1].
        apply hcount_bind. eapply hcount_mono; [|apply split_nodes_hcount]. intros r0 c' ->. cbn beta.
        destruct (push_split r0 acc1 q1) as [acc2 q2]. apply IH.
      + destruct (m <? si); [by apply hcount_lift|done].
    - destruct (km !! lk) as [l|].
      + destruct (decide (l = cloc cl)); [|apply IH]. apply hcount_bind.
        eapply hcount_mono; [|apply insert_leaf_hcount]. intros ? ? ->. apply IH.
      + apply hcount_bind. eapply hcount_mono; [|apply insert_leaf_hcount]. intros ? ? ->. apply IH.
  Qed.
  (** [insert_sorted] up to [create_tree]. *)
  Definition insert_refs (prev : option (arr n)) ks vm : prog n (list (tref n)) :=
    nodes ← insert_leaves encode vm ks;
    proof_nodes ←
      (match prev with
       | Some root => generate_treerefs max_depth root ks (key_map_of ks nodes)
       | None => mret []
       end);
    mret (zip_with (λ l k, TRef k l 1 1) nodes ks ++ proof_nodes).
  Lemma insert_refs_hcount prev ks vm c :
    hcount (insert_refs prev ks vm) c (λ rs c', c' = c + 2 * length ks ∧ (prev = None → length rs = length ks)).
  Proof.
    unfold insert_refs. apply hcount_bind. eapply hcount_mono; [|apply insert_leaves_hcount].
    intros ls c' [-> Hl]. apply hcount_bind. destruct prev as [root|].
    - unfold generate_treerefs. cbn. intros [nd|]; [|done].
      eapply hcount_mono; [|apply traverse_hcount]. intros ps c' ->. cbn. split; [done|done].
    - cbn. split; [done|]. intros _. rewrite app_nil_r, zip_with_length. lia.
  Qed.
  Lemma pbind_assoc {A C D} (p : prog n A) (f : A → prog n C) (g : C → prog n D) B H st :
    run B H ((p ≫= f) ≫= g) st = run B H (p ≫= λ a, f a ≫= g) st.
  Proof.
    rewrite !run_bind. destruct (run B H p st) as [[[a|e| |] s'] lg]; try done. rewrite run_bind.
    destruct (run B H (f a) s') as [[[b|e| |] s''] lg']; try done.
    destruct (run B H (g b) s'') as [[o s3] lg'']. by rewrite app_assoc.
  Qed.
  Lemma insert_sorted_refs prev ks vm B (H : list bytes → arr n) st :
    run B H (insert_sorted encode max_depth prev ks vm) st =
    run B H (insert_refs prev ks vm ≫= create_tree) st.
  Proof.
    unfold insert_refs. rewrite pbind_assoc. unfold insert_sorted. rewrite !run_bind.
    destruct (run B H (insert_leaves encode vm ks) st) as [[[ls|e| |] s'] lg]; try done.
    rewrite pbind_assoc, !run_bind.
    by destruct (run B H _ s') as [[[ps|e| |] s''] lg'].
  Qed.
  Theorem insert_sorted_count prev ks vm B (H : list bytes → arr n) st r (Hn : 0 < n) :
    out B H (insert_sorted encode max_depth prev ks vm) st = ROk r →
    ∃ rs, out B H (insert_refs prev ks vm) st = ROk rs ∧
      (∀ x, x ∈ hlog B H (insert_refs prev ks vm) st → x ∈ hlog B H (insert_sorted encode max_depth prev ks vm) st) ∧
      length (hlog B H (insert_sorted encode max_depth prev ks vm) st) + 1 = 2 * length ks + length rs ∧
      (prev = None → length rs = length ks).
  Proof.
    unfold out, hlog. rewrite insert_sorted_refs, run_bind.
    pose proof (λ a, hcount_run B H (insert_refs prev ks vm) 0 _ st a (insert_refs_hcount prev ks vm 0)) as H1.
    unfold out, hlog in H1.
    destruct (run B H (insert_refs prev ks vm) st) as [[[rs|e| |] s'] lg]; try done. cbn [fst snd] in *.
    destruct (H1 rs eq_refl) as [Hl Hnone]. cbn in Hl.
    pose proof (λ a, hcount_run B H (create_tree rs) 0 _ s' a (create_tree_hcount Hn rs 0)) as H2.
    unfold out, hlog in H2. destruct (run B H (create_tree rs) s') as [[o s''] lg']. cbn [fst snd] in *.
    intros ->. specialize (H2 r eq_refl). exists rs. split_and!; try done.
    - intros x Hx. apply elem_of_app. by left.
    - rewrite app_length. lia.
  Qed.
End InsertCount.

(** ** The nodes above the keys of a batch *)
Section Touched.
  Context {n : nat}.
  Implicit Types (t u p : trie n) (ps : list (trie n)) (o : obj n) (ks : list (arr n)) (k : arr n).

  Definition okeys o : list (arr n) := match o with OT t => tkeys t | OD k _ => [k] end.
  Definition touched ks o : Prop := Exists (λ k, k ∈ ks) (okeys o).
  Global Instance touched_dec ks o : Decision (touched ks o).
  Proof. unfold touched. apply _. Defined.
  Lemma touched_iff ks o : touched ks o ↔ ∃ k, k ∈ ks ∧ k ∈ okeys o.
  Proof. unfold touched. rewrite Exists_exists. naive_solver. Qed.

  Lemma subtrie_nested t u p k : NoDup (tkeys t) → subtrie u t → subtrie p t → k ∈ tkeys u → k ∈ tkeys p →
    subtrie u p ∨ subtrie p u.
  Proof.
    induction t as [k0 e0|l IHl r IHr]; intros Hnd Hu Hp Hku Hkp.
    - inversion Hu; subst. inversion Hp; subst. by left.
    - rewrite tkeys_node in Hnd. apply NoDup_app in Hnd as (Hl & Hd & Hr).
      inversion Hu; subst; [by right| |]; (inversion Hp; subst; [left; by constructor| |]); auto;
        exfalso; eapply Hd; by eapply subtrie_keys.
  Qed.
  Lemma subtrie_antisym u p : subtrie u p → subtrie p u → u = p.
  Proof.
    intros H1 H2. pose proof (subtrie_size _ _ H1). pose proof (subtrie_size _ _ H2).
    inversion H1 as [|? l r Hs|? l r Hs]; subst; [done| |]; apply subtrie_size in Hs; cbn [tsize] in *;
      pose proof (tsize_pos l); pose proof (tsize_pos r); lia.
  Qed.
  Lemma covered t ps ks : twf t → (∀ p, p ∈ ps → subtrie p t) →
    (∀ k e, (k, e) ∈ tleaves t → k ∉ ks → ∃ p, p ∈ ps ∧ (k, e) ∈ tleaves p) →
    (∀ l r, l ∈ ps → r ∈ ps → ¬ subtrie (TNode l r) t) →
    ∀ u, subtrie u t → ¬ touched ks (OT u) → ∃ p, p ∈ ps ∧ subtrie u p.
  Proof.
    intros Hwf Hps Hlv Hjoin. pose proof (twf_nodup _ Hwf) as Hnd.
    induction u as [k e|l IHl r IHr]; intros Hu Hno; rewrite touched_iff in Hno.
    - destruct (Hlv k e) as (p & Hp & Hin).
      + eapply subtrie_leaves; [exact Hu|by left].
      + intros Hk. apply Hno. exists k. split; [done|]. by left.
      + exists p. split; [done|]. by apply leaf_subtrie.
    - assert (subtrie l t) as Hl by (eapply subtrie_trans; [|exact Hu]; apply sub_l; constructor).
      assert (subtrie r t) as Hr by (eapply subtrie_trans; [|exact Hu]; apply sub_r; constructor).
      assert (twf (TNode l r)) as Hwu by (by eapply subtrie_twf).
      pose proof (twf_nodup _ Hwu) as Hndu. rewrite tkeys_node in Hndu. apply NoDup_app in Hndu as (_ & Hd & _).
      destruct IHl as (p1 & Hp1 & Hs1); [done| |].
      { rewrite touched_iff. intros (k & Hk & Hin). apply Hno. exists k. split; [done|]. cbn [okeys] in *.
        rewrite tkeys_node, elem_of_app. by left. }
      destruct IHr as (p2 & Hp2 & Hs2); [done| |].
      { rewrite touched_iff. intros (k & Hk & Hin). apply Hno. exists k. split; [done|]. cbn [okeys] in *.
        rewrite tkeys_node, elem_of_app. by right. }
      destruct (subtrie_nested t (TNode l r) p1 (tmin l) Hnd Hu (Hps _ Hp1)) as [?|H1].
      { rewrite tkeys_node, elem_of_app. left. apply tmin_in. }
      { eapply subtrie_keys; [exact Hs1|apply tmin_in]. }
      { by exists p1. }
      destruct (subtrie_nested t (TNode l r) p2 (tmin r) Hnd Hu (Hps _ Hp2)) as [?|H2].
      { rewrite tkeys_node, elem_of_app. right. apply tmin_in. }
      { eapply subtrie_keys; [exact Hs2|apply tmin_in]. }
      { by exists p2. }
      inversion H1 as [|? ? ? Hs|? ? ? Hs]; subst.
      { exists (TNode l r). split; [done|constructor]. }
      2:{ exfalso. apply (Hd (tmin l)); [apply tmin_in|]. eapply subtrie_keys; [exact Hs|].
          eapply subtrie_keys; [exact Hs1|apply tmin_in]. }
      assert (p1 = l) as -> by (by apply subtrie_antisym).
      inversion H2 as [|? ? ? Hs'|? ? ? Hs']; subst.
      { exists (TNode l r). split; [done|constructor]. }
      { exfalso. apply (Hd (tmin r)); [|apply tmin_in]. eapply subtrie_keys; [exact Hs'|].
        eapply subtrie_keys; [exact Hs2|apply tmin_in]. }
      assert (p2 = r) as -> by (by apply subtrie_antisym).
      exfalso. by apply (Hjoin l r).
  Qed.
  Lemma mjoin_cons {A} (x : list A) (l : list (list A)) : mjoin (x :: l) = x ++ mjoin l.
  Proof. done. Qed.
  Lemma pieces_objs_nodup ps : NoDup (mjoin (tkeys <$> ps)) → NoDup (mjoin (tobjs <$> ps)).
  Proof.
    induction ps as [|p ps IH]; [intros _; constructor|]. rewrite !fmap_cons, !mjoin_cons, !NoDup_app.
    intros (Hp & Hd & Hps). split_and!; [by apply tobjs_nodup| |by apply IH].
    intros o Ho Hin. apply elem_of_tobjs in Ho. apply elem_of_list_join in Hin as (x & Hx & Hin).
    apply elem_of_list_fmap in Hin as (p' & -> & Hp'). apply elem_of_tobjs in Hx.
    apply osub_key in Ho, Hx. apply (Hd _ Ho). apply elem_of_list_join. exists (tkeys p'). split; [done|].
    by apply elem_of_list_fmap_1.
  Qed.
  Lemma pieces_objs_length ps : length (mjoin (tobjs <$> ps)) + length ps = 3 * length (mjoin (tkeys <$> ps)).
  Proof.
    induction ps as [|p ps IH]; [done|]. rewrite !fmap_cons, !mjoin_cons, !app_length. cbn [length]. pose proof (tobjs_length p) as Hp. rewrite <- tkeys_length in Hp. lia.
  Qed.
  Lemma filter_split {A} (P : A → Prop) `{!∀ x, Decision (P x)} (l : list A) :
    length (filter P l) + length (filter (λ x, ¬ P x) l) = length l.
  Proof.
    induction l as [|x l IH]; [done|]. rewrite !filter_cons. destruct (decide (P x)) as [HP|HP].
    - rewrite decide_False by naive_solver. cbn. lia.
    - rewrite decide_True by done. cbn. lia.
  Qed.
  Lemma touched_count t ps ks : twf t → (∀ p, p ∈ ps → subtrie p t) →
    (∀ k e, (k, e) ∈ tleaves t → k ∉ ks → ∃ p, p ∈ ps ∧ (k, e) ∈ tleaves p) →
    (∀ l r, l ∈ ps → r ∈ ps → ¬ subtrie (TNode l r) t) →
    (∀ p k, p ∈ ps → k ∈ ks → k ∉ tkeys p) → NoDup (mjoin (tkeys <$> ps)) →
    length (filter (touched ks) (tobjs t)) + 1 + 3 * length (mjoin (tkeys <$> ps)) = 3 * tsize t + length ps.
  Proof.
    intros Hwf Hps Hlv Hjoin Hno Hnd.
    assert (filter (λ o, ¬ touched ks o) (tobjs t) ≡ₚ mjoin (tobjs <$> ps)) as Hp.
    { apply NoDup_Permutation.
      - apply NoDup_filter, tobjs_nodup. by apply twf_nodup.
      - by apply pieces_objs_nodup.
      - intros o. rewrite elem_of_list_filter, elem_of_tobjs, elem_of_list_join.
        setoid_rewrite elem_of_list_fmap. split.
        + intros [Hnt Ho]. assert (∃ p, p ∈ ps ∧ osub o p) as (p & Hp & Hs).
          { destruct o as [u|k e]; [by apply (covered t ps ks)|]. cbn [osub] in *.
            by apply (covered t ps ks Hwf Hps Hlv Hjoin (TLeaf k e)). }
          exists (tobjs p). split; [by apply elem_of_tobjs|eauto].
        + intros (x & Hx & p & -> & Hp). apply elem_of_tobjs in Hx. split.
          * rewrite touched_iff. intros (k & Hk & Hin). apply (Hno p k Hp Hk).
            destruct o as [u|k' e]; cbn [okeys osub] in *; [by eapply subtrie_keys|].
            apply elem_of_list_singleton in Hin as ->. eapply subtrie_keys; [exact Hx|by left].
          * eapply osub_mono; [exact Hx|by apply Hps]. }
    pose proof (filter_split (touched ks) (tobjs t)) as Hf. apply Permutation_length in Hp. rewrite Hp in Hf.
    pose proof (tobjs_length t). pose proof (pieces_objs_length ps). lia.
  Qed.
  Lemma touched_single (H : list bytes → arr n) t k : twf t → k ∈ tkeys t →
    length (filter (touched [k]) (tobjs t)) = length (tproof H t k).
  Proof.
    assert (∀ t, k ∉ tkeys t → filter (touched [k]) (tobjs t) = []) as Hnil.
    { intros u Hu. destruct (filter (touched [k]) (tobjs u)) as [|o os] eqn:Hf; [done|].
      exfalso. assert (o ∈ filter (touched [k]) (tobjs u)) as Ho by (rewrite Hf; by left).
      apply elem_of_list_filter in Ho as [Ht Ho]. apply elem_of_tobjs in Ho. apply touched_iff in Ht as (k' & Hk' & Hin).
      apply elem_of_list_singleton in Hk' as ->. apply Hu.
      destruct o as [p|k' e]; cbn [okeys osub] in *; [by eapply subtrie_keys|].
      apply elem_of_list_singleton in Hin as ->. eapply subtrie_keys; [exact Ho|by left]. }
    assert (∀ o, k ∈ okeys o → touched [k] o) as Hyes.
    { intros o Ho. apply touched_iff. exists k. split; [by left|done]. }
    induction t as [k' e'|l IHl r IHr]; intros Hwf Hk.
    - apply elem_of_list_singleton in Hk. cbn in Hk. subst k'. cbn [tobjs]. rewrite !filter_cons.
      rewrite !decide_True by (apply Hyes; by left). done.
    - cbn [tobjs tproof]. rewrite filter_cons, decide_True by (by apply Hyes).
      rewrite filter_app. pose proof Hwf as (Hl & Hr & _).
      pose proof (twf_nodup _ Hwf) as Hnd. rewrite tkeys_node in *. apply NoDup_app in Hnd as (_ & Hd & _).
      apply elem_of_app in Hk as [Hk|Hk].
      + rewrite (proj2 (twf_left l r k Hwf Hk)). rewrite (Hnil r) by (by apply Hd). rewrite app_nil_r.
        cbn [length]. f_equal. by rewrite IHl.
      + rewrite (proj2 (proj2 (twf_right l r k Hwf Hk))). rewrite (Hnil l) by (intros ?; by eapply Hd).
        cbn [app length]. f_equal. by rewrite IHr.
  Qed.
End Touched.

(** ** The nodes on the way to a key *)
Section OnWay.
  Context {n : nat} (H : list bytes → arr n).
  Implicit Types (m : db n) (t : trie n) (o : obj n) (ks : list (arr n)) (k x : arr n).
  Lemma obj_has m t o : stored H m t → osub o t → has m (oloc H o) (ovar H o).
  Proof.
    intros Hst Ho. destruct o as [p|k e]; cbn [osub oloc ovar] in *.
    - apply stored_root. by eapply subtrie_stored.
    - eapply subtrie_stored in Hst; [|exact Ho]. by destruct Hst.
  Qed.
  Lemma on_way_touched m t k x : stored H m t →
    on_way m (troot H t) k x ↔ ∃ o, osub o t ∧ k ∈ okeys o ∧ oloc H o = x.
  Proof.
    intros Hst. split.
    - intros (l & rf & d & Hl & Hr & Hx).
      assert (∀ u, stored H m u → rtc (child m) (troot H u) l → ∃ e, subtrie (TLeaf k e) u ∧ d = dloc H k e) as Hleaf.
      { intros u Hu Hrl. apply (below_objs H m u l Hu) in Hrl as (o & Ho & <-).
        pose proof (obj_has m u o Hu Ho) as Hh. apply has_lookup in Hh as [rf' Hh]. rewrite Hl in Hh.
        injection Hh as _ Hv. destruct o as [[k' e'|]|]; try done. cbn in Hv. injection Hv as -> ->. eauto. }
      destruct Hx as [[Hrx Hxl]| ->].
      + apply (below_objs H m t x Hst) in Hrx as (o & Ho & <-). exists o. split_and!; try done.
        destruct o as [u|k' e']; cbn [okeys osub oloc] in *.
        * destruct (Hleaf u) as (e & He & _); [by eapply subtrie_stored|done|]. eapply subtrie_keys; [exact He|by left].
        * pose proof (obj_has m t (OD k' e') Hst Ho) as Hh. apply has_lookup in Hh as [rf' Hh]. cbn in Hh.
          inversion Hxl as [|? y ? (nd & Hnd & Hy)]; subst; [congruence|].
          rewrite Hnd in Hh. injection Hh as ->. by apply elem_of_nil in Hy.
      + destruct (Hleaf t Hst Hr) as (e & He & ->). exists (OD k e). split_and!; [done|by left|done].
    - intros (o & Ho & Hk & <-). destruct o as [u|k' e]; cbn [okeys osub oloc] in *.
      + apply elem_of_tkeys in Hk as [e He]. apply leaf_subtrie in He as Hs.
        assert (stored H m u) as Hu by (by eapply subtrie_stored).
        pose proof (obj_has m u (OT (TLeaf k e)) Hu Hs) as Hh. apply has_lookup in Hh as [rf Hh]. cbn in Hh.
        exists (lloc H k e), rf, (dloc H k e). split_and!; [done| |left].
        * apply (stored_below H m t (OT (TLeaf k e)) Hst). by eapply (subtrie_trans _ u).
        * split; [by apply (stored_below H m t (OT u))|]. by apply (stored_below H m u (OT (TLeaf k e)) Hu).
      + apply elem_of_list_singleton in Hk as ->.
        pose proof (obj_has m t (OT (TLeaf k' e)) Hst Ho) as Hh. apply has_lookup in Hh as [rf Hh]. cbn in Hh.
        exists (lloc H k' e), rf, (dloc H k' e). split_and!; [done| |by right].
        by apply (stored_below H m t (OT (TLeaf k' e)) Hst).
  Qed.
End OnWay.

(** ** The work of an insertion *)
Section Refs.
  Context {n : nat} (Hn : 0 < n) (H : list bytes → arr n).
  Context (S : list bytes → Prop) (Hinj : inj_on H S).
  Context (pr : db n → Prop) (Hkp : keeps H S no_floor pr).
  Context (B : backend n) {HB : BackendOk B}.
  Context {V : Type} (encode : V → res bytes) (Henc : ∀ v, encode v ≠ Pan) (max_depth : nat).
  Implicit Types (t : trie n) (vm : gmap (arr n) V) (ks : list (arr n)) (old : option (trie n)).

  Lemma insert_refs_wp ks vm old s :
    Jp pr B (b_vis B s) s → oldok H S (b_vis B s) old → ksorted ks → ks ≠ [] →
    (∀ k, k ∈ ks → is_Some (vm !! k)) →
    wp B H S (Jp pr B (b_vis B s)) (insert_refs encode max_depth (troot H <$> old) ks vm)
      (λ rs _, length rs = length ks + length (olddec old ks) ∧ olddep old ks ≤ max_depth)
      (λ er _, (∃ k v, k ∈ ks ∧ vm !! k = Some v ∧ encode v = Err er) ∨
         er = "Depth of merkle tree exceeded" ∧ max_depth < olddep old ks) s.
  Proof.
    intros HJ Hold Hso Hne Hvm. set (m0 := b_vis B s) in *.
    assert (G H S pr B m0 s (bview s, bpend s, [])) as HG.
    { split_and!; simpl; auto. }
    unfold insert_refs. apply wp_bind.
    eapply wp_mono; [| |apply (insert_leaves_wp Hn H S Hinj no_floor pr Hkp B m0 encode Henc (isnew encode ks vm)
      (λ p, p ∈ olddec old ks) (in_old old) vm ks s _ _ _ HG)].
    3:{ done. }
    3:{ intros k v e Hk Hv He. split; [done|]. eauto. }
    2:{ intros er s' [_ Her]. by left. }
    intros ls s1 (es & m1 & P1 & ts1 & Hes & -> & Hts1 & Hev1 & HG1).
    assert (length ks = length es) as Hlen by (by eapply Forall2_length).
    assert (Forall2 (λ k e, encg encode vm k = Some e) ks es) as Hes1.
    { eapply Forall2_impl; [exact Hes|]. intros k e (Hv & _). by apply encg_Some. }
    set (km := key_map_of ks (zip_with (lloc H) ks es)).
    assert (∀ k, kdel km k = bool_decide (k ∈ ks)) as Hkd.
    { intros k. unfold kdel, km. rewrite (key_map_lookup ks es (lloc H) (encg encode vm) k Hes1).
      destruct (decide (k ∈ ks)) as [Hin|Hni].
      - rewrite bool_decide_true by done. apply elem_of_list_lookup_1 in Hin as [i Hi].
        destruct (Forall2_lookup_l _ _ _ _ _ Hes1 Hi) as (e & _ & ->). done.
      - by rewrite bool_decide_false. }
    apply wp_bind.
    eapply (wp_mono B H S _ _ (λ rs s2, length rs = length (olddec old ks) ∧ olddep old ks ≤ max_depth) _
      (λ er s2, er = "Depth of merkle tree exceeded" ∧ max_depth < olddep old ks)).
    - intros rs s2 [Hrs Hdep]. cbn. split; [|done]. rewrite app_length, !zip_with_length. lia.
    - intros er s2 Her. by right.
    - destruct old as [t0|]; [|split; [done|simpl; lia]].
      destruct Hold as (Hst & Hw & Hpre).
      cbn [fmap option_fmap option_map]. unfold generate_treerefs.
      destruct (G_read H S no_floor pr Hkp B m0 s1 m1 P1 ts1 t0 HG1 Hst) as (rf & Hrf & Hr & Hf).
      cbn [get_node mbind prog_bind pbind Logic.wp]. rewrite Hrf.
      assert (pieces km [Cell (troot H t0) ks (Node rf (tvar H t0)) 0] [t0] = olddec (Some t0) ks) as Hpc.
      { unfold pieces. cbn. rewrite app_nil_r. by apply wdec_ext. }
      eapply wp_mono; [| |apply (traverse_wp Hn H S Hinj no_floor pr Hkp B m0 encode Henc max_depth (isnew encode ks vm)
        (λ p, p ∈ olddec (Some t0) ks) (in_old (Some t0)) km _ [] _ [t0] s1 m1 P1 ts1 HG1)].
      + intros rs s2 (ps & m2 & P2 & ts2 & -> & Hps & _ & _ & _ & Hdd). split.
        * cbn. rewrite fmap_length. rewrite Hpc in Hps. by apply Permutation_length.
        * specialize (Hdd _ t0 ltac:(by left)). simpl in Hdd. done.
      + intros er s2 (_ & -> & c & t & Hin & Hd). split; [done|].
        apply elem_of_list_singleton in Hin as [= -> ->]. done.
      + repeat constructor; done.
      + intros k lc Hlc. unfold km in Hlc.
        rewrite (key_map_lookup ks es (lloc H) (encg encode vm) k Hes1) in Hlc.
        destruct (decide (k ∈ ks)) as [Hin|]; [|done].
        apply elem_of_list_lookup_1 in Hin as Hin'. destruct Hin' as [i Hi].
        destruct (Forall2_lookup_l _ _ _ _ _ Hes Hi) as (e & Hei & Hv & Hd & Hl & HP).
        apply encg_Some in Hv as Hv'. rewrite Hv' in Hlc. injection Hlc as <-.
        exists e. split_and!; [by split|done|done|by repeat constructor].
      + unfold traverse_fuel, measure. cbn. lia.
      + intros c ->%elem_of_list_singleton. simpl. lia.
      + intros p. by rewrite Hpc.
  Qed.
End Refs.

Section Work.
  Context {n : nat} (Hn : 0 < n) (B : backend n) {HB : BackendOk B} (H : list bytes → arr n).
  Context {V : Type} (enc : V → res bytes) (dec : bytes → res V) (Hcodec : codec_ok enc dec).
  Implicit Types (st : b_st B) (lg L : list (list bytes)) (k r : arr n) (ks : list (arr n)) (vs : list V).
  Implicit Types (M : gmap (arr n) V) (hs : list (arr n * gmap (arr n) V)) (t l : trie n).
  Notation Sof L := (λ x, x ∈ L).
  Let Henc : ∀ v, enc v ≠ Pan := enc_no_panic _ _ Hcodec.

  Lemma insert_count L st hs Dep prev M ks vs r :
    inj_on H (Sof L) → Forall (handle_ok H enc L (b_vis B st)) hs → Jp (shallow H (Sof L)) B (b_vis B st) st →
    prev_holds hs prev M → benign M ks → (∀ x, x ∈ hlog B H (insert enc Dep prev ks vs) st → x ∈ L) →
    out B H (insert enc Dep prev ks vs) st = ROk r →
    ∃ t, tree_of H enc L (r, updated M ks vs) t ∧ stored H (b_vis B (fin B H (insert enc Dep prev ks vs) st)) t ∧
      (∀ k, k ∈ ks → k ∈ tkeys t) ∧
      length (hlog B H (insert enc Dep prev ks vs) st) = length (filter (touched ks) (tobjs t)).
  Proof using Hn Hcodec HB.
    intros Hinj Hh HJ Hp Hb HL Hout.
    pose proof (insert_ev Hn B H enc dec Hcodec L st hs (b_vis B st) Dep prev M ks vs no_floor (shallow H (Sof L)) Hinj Hh
      (cle_refl _) Hp Hb (shallow_keeps H L Hinj) HJ ltac:(intros; apply Nat.le_0_l)) as Hev.
    apply wp_run in Hev; [|done]. rewrite Hout in Hev.
    destruct Hev as (t & P' & piece & Htr & Hst & _ & _ & _ & _ & _ & Hkt & Hlen & Hnd & _ & Hvis & _).
    exists t. rewrite Hvis. split_and!; try done. destruct Htr as (Hr & Hwft & Htpre & Hent). cbn [fst snd] in *.
    revert HL Hout. unfold insert.
    destruct (Nat.eqb_spec (length ks) (length vs)) as [_|?]; [|done]. simpl negb. cbn iota.
    destruct (Nat.eqb_spec (length ks) 0) as [Hz|Hne]; [done|].
    destruct (Nat.eqb_spec (length vs) 0) as [|Hne']; [lia|]. simpl orb. cbn iota. intros HL Hout.
    destruct (prev_old H enc L _ hs prev M Hh Hp) as (old & -> & Hok & Hwf & He).
    assert (¬ hazard (has_key (omap old)) (sort_keys ks)) as Hhz.
    { apply benign_sort. by apply (encs_benign enc M (omap old) ks He). }
    pose proof (or_introl Hhz : mild (omap old) (sort_keys ks)) as Hmd.
    assert (sort_keys ks ≠ []) as Hsne.
    { intros Hnil. apply Hne. rewrite <- sort_keys_length, Hnil. done. }
    set (sk := sort_keys ks) in *. set (vm := value_map_of ks vs) in *.
    assert (∀ k, k ∈ sk → is_Some (vm !! k)) as Hvm.
    { intros k Hk. apply value_map_some; [done|done|]. by apply elem_of_sort_keys. }
    destruct (insert_sorted_count enc Dep _ _ _ B H st r Hn Hout) as (rs & Hrs & Hsub & Hcnt & _).
    pose proof (insert_refs_wp Hn H (Sof L) Hinj (shallow H (Sof L)) (shallow_keeps H L Hinj) B enc Henc Dep sk vm old st
      HJ Hok (sort_keys_sorted ks) Hsne Hvm) as Hw.
    apply wp_run in Hw; [|intros x Hx; by apply HL, Hsub]. rewrite Hrs in Hw. destruct Hw as [Hw _]. rewrite Hw in Hcnt.
    pose proof (insert_sorted_wp_gen Hn H (Sof L) Hinj no_floor (shallow H (Sof L)) (shallow_keeps H L Hinj) B enc Henc Dep
      sk vm old st HJ Hok (sort_keys_sorted ks) Hsne Hvm ltac:(intros es ts _ _ _ x bs1 l0 r0 bs2 _ _ _ _ _ _; apply Nat.le_0_l)) as Hs.
    apply wp_run in Hs; [|done]. rewrite Hout in Hs.
    destruct Hs as (es & m' & P'' & t' & ts & -> & Hes & _ & _ & HG & _ & _ & Hts & Hsort & Hlv & Hgd & _).
    assert (length sk = length es) as Hle by (by eapply Forall2_length).
    assert (bgood ts) as Hbg by (eapply result_good; eauto; apply sort_keys_sorted).
    assert (t' = t) as ->.
    { eapply (troot_inj H (Sof L) Hinj); [|exact Htpre|done].
      destruct HG as (_ & _ & _ & Htok). apply Forall_cons in Htok as [(_ & _ & ?) _]. done. }
    assert (∀ p, p ∈ ts → subtrie p t) as Hsubt.
    { destruct (bgood_extend ts) as (t2 & Hw2 & Hl2 & Hs2); [|done|done|].
      - intros ->. apply Permutation_nil in Hts. apply app_eq_nil in Hts as [Hts _].
        destruct sk; [done|]. by destruct es.
      - assert (t2 = t) as ->; [|done]. apply twf_leaves_inj; [done|done|]. congruence. }
    pose proof (touched_count t (olddec old sk) sk Hwft) as Hc.
    assert (length (filter (touched ks) (tobjs t)) = length (filter (touched sk) (tobjs t))) as ->.
    { f_equal. apply list_filter_iff. intros o. rewrite !touched_iff. unfold sk. by setoid_rewrite elem_of_sort_keys. }
    specialize (Hc ltac:(intros p Hp'; apply Hsubt; rewrite Hts; apply elem_of_app; by right)).
    assert (tsize t = length sk + length (mjoin (tkeys <$> olddec old sk))) as Hsz.
    { rewrite <- tkeys_length. unfold tkeys at 1. rewrite fmap_length, Hlv.
      assert (mjoin (tleaves <$> ts) ≡ₚ mjoin (tleaves <$> new_tries sk es ++ olddec old sk)) as -> by (by rewrite Hts).
      rewrite fmap_app, mjoin_app, app_length, new_leaves, zip_with_length by done.
      rewrite <- Hle, Nat.min_id. f_equal. generalize (olddec old sk). intros ps.
      induction ps as [|p ps IH]; [done|]. rewrite !fmap_cons, !mjoin_cons, !app_length, IH. unfold tkeys.
      by rewrite fmap_length. }
    rewrite Hsz in Hc.
    assert (length (filter (touched sk) (tobjs t)) + 1 + 3 * length (mjoin (tkeys <$> olddec old sk)) =
      3 * (length sk + length (mjoin (tkeys <$> olddec old sk))) + length (olddec old sk)) as Hc'; [apply Hc; clear Hc|lia].
    - intros k e Hin Hk. apply (result_elem sk es old Hle t ts Hts Hlv) in Hin as [Hin|?]; [|done].
      exfalso. apply Hk. by apply elem_of_zip_l in Hin.
    - intros l0 r0 Hl0 Hr0. eapply (no_join Hn old sk); try done; [apply sort_keys_sorted|].
      intros z Hz. apply Hkt. by apply elem_of_sort_keys.
    - intros p k Hpc Hk Hin. apply elem_of_tkeys in Hin as [e Hin].
      destruct (proj1 (olddec_leaves Hn old sk k e Hwf (sort_keys_sorted ks) Hsne Hmd)) as [_ Hni]; [eauto|done].
    - apply (olddec_nodup Hn old sk); try done. apply sort_keys_sorted.
  Qed.

  (** Both kinds of histories. *)
  Lemma known_J L st lg hs : hist B H enc dec st lg hs ∨ whist B H enc dec st lg hs →
    no_collision H L → (∀ x, x ∈ lg → x ∈ L) →
    Forall (handle_ok H enc L (b_vis B st)) hs ∧ Jp (shallow H (Sof L)) B (b_vis B st) st.
  Proof using Hn Hcodec HB.
    intros [Hh|Hh] Hc Hlg.
    - assert (hinv B H enc L st hs) as [HJ Hf] by (by eapply hist_hinv). split; [done|].
      apply J_rebase in HJ. destruct HJ as (?&?&?&?). split_and!; try done; by apply proper_shallow.
    - destruct (whist_inv Hn B H enc dec Hcodec L st lg hs Hc Hh Hlg) as (hts & D & Hi).
      destruct (winv_handles B H enc L st hs hts D Hc Hi) as [_ Hf]. split; [done|].
      pose proof (winv_counted _ _ _ _ _ _ _ _ Hi) as (_ & _ & [Hs1 _] & [Hs2 _] & Hcl).
      split_and!; try done. apply cle_refl.
  Qed.
  (** C69 *)
  Theorem insert_hashes st lg hs Dep prev M ks vs r :
    hist B H enc dec st lg hs ∨ whist B H enc dec st lg hs →
    no_collision H (lg ++ hlog B H (insert enc Dep prev ks vs) st) → prev_holds hs prev M → benign M ks →
    out B H (insert enc Dep prev ks vs) st = ROk r →
    ∃ ls, NoDup ls ∧ length ls = length (hlog B H (insert enc Dep prev ks vs) st) ∧
      ∀ x : arr n, x ∈ ls ↔ ∃ k, k ∈ ks ∧ on_way (b_vis B (fin B H (insert enc Dep prev ks vs) st)) r k x.
  Proof using Hn Hcodec HB.
    intros Hh Hc Hp Hb Hout. set (L := lg ++ _) in *.
    destruct (known_J L st lg hs Hh Hc) as [Hf HJ]; [intros; apply elem_of_app; by left|].
    destruct (insert_count L st hs Dep prev M ks vs r Hc Hf HJ Hp Hb) as (t & Htr & Hst & Hkt & Hl);
      [intros; apply elem_of_app; by right|done|].
    destruct Htr as (Hr & Hwf & Hpre & _). cbn [fst] in Hr. subst r.
    exists (oloc H <$> filter (touched ks) (tobjs t)). split_and!.
    - pose proof (locs_tree H (Sof L) Hc t (twf_nodup _ Hwf) Hpre) as Hnd. unfold locs in Hnd. cbn in Hnd.
      rewrite app_nil_r in Hnd. revert Hnd. generalize (tobjs t). intros os.
      induction os as [|o os IH]; [constructor|]. rewrite fmap_cons, NoDup_cons. intros [Hni Hnd].
      rewrite filter_cons. destruct (decide _); [|by apply IH]. rewrite fmap_cons, NoDup_cons. split; [|by apply IH].
      intros (o' & Ho & Hin)%elem_of_list_fmap. apply elem_of_list_filter in Hin as [_ Hin].
      apply Hni. rewrite Ho. by apply elem_of_list_fmap_1.
    - by rewrite fmap_length, Hl.
    - intros x. rewrite elem_of_list_fmap. setoid_rewrite elem_of_list_filter. setoid_rewrite elem_of_tobjs.
      setoid_rewrite touched_iff. setoid_rewrite (on_way_touched H _ t _ x Hst). naive_solver.
  Qed.
  Theorem insert_one_hashes st lg hs Dep prev M k v r :
    hist B H enc dec st lg hs ∨ whist B H enc dec st lg hs →
    no_collision H (lg ++ hlog B H (insert_one enc Dep prev k v) st) → prev_holds hs prev M →
    out B H (insert_one enc Dep prev k v) st = ROk r →
    ∃ p, (∀ D', 8 * n + 1 ≤ D' →
        out B H (generate_inclusion_proof D' r k) (fin B H (insert_one enc Dep prev k v) st) = ROk p) ∧
      length (hlog B H (insert_one enc Dep prev k v) st) = length p.
  Proof using Hn Hcodec HB.
    rewrite insert_one_insert. intros Hh Hc Hp Hout. set (L := lg ++ _) in *.
    destruct (known_J L st lg hs Hh Hc) as [Hf HJ]; [intros; apply elem_of_app; by left|].
    destruct (insert_count L st hs Dep prev M [k] [v] r Hc Hf HJ Hp (benign_single _ _)) as (t & Htr & Hst & Hkt & Hl);
      [intros; apply elem_of_app; by right|done|].
    destruct Htr as (Hr & Hwf & Hpre & _). cbn [fst] in Hr. subst r.
    assert (k ∈ tkeys t) as Hk by (apply Hkt; by left).
    exists (reverse (tproof H t k)). split.
    - intros D' HD. rewrite (gen_proof_run Hn) by (auto using twf_tpwf).
      pose proof (tneed_depth Hn t k). pose proof (twf_depth t Hwf). destruct (Nat.ltb_spec D' (tneed t k)); [lia|].
      apply tmap_has in Hk as [e Hk]. rewrite <- tlookup_tmap in Hk by done. by rewrite Hk.
    - rewrite Hl, reverse_length. by apply touched_single.
  Qed.
End Work.

(** ** The work of reading one key, and of checking a proof *)
Section ReadWork.
  Context {n : nat} (Hn : 0 < n) (B : backend n) (H : list bytes → arr n).
  Context {V : Type} (enc : V → res bytes) (dec : bytes → res V) (D : nat).
  Implicit Types (t l r : trie n) (k : arr n) (s : b_st B).

  Lemma get_one_loop_fetches fuel k d t s : stored H (b_vis B s) t → tpwf t →
    D + 2 ≤ fuel + d → d ≤ D + 1 →
    fetches B H (get_one_loop dec D fuel k d false (troot H t)) s = (D + 1 - d) `min` (tneed t k + 1).
  Proof using Hn.
    revert fuel d. induction t as [k' e|l IHl r IHr]; intros fuel d Hst Hwf Hf Hd.
    - destruct fuel as [|fuel]; [lia|].
      destruct Hst as [(rl & Hl)%has_lookup (rd & Hdt)%has_lookup].
      cbn [get_one_loop tneed troot]. destruct (Nat.ltb_spec D d) as [Hlt|Hge]; [cbn [fetches]; lia|].
      cbn [mbind prog_bind pbind hash get_node fetches]. rewrite Hl. cbn [var tvar].
      destruct (decide (k' = k)) as [->|Hne]; [|cbn [mret prog_ret fetches]; lia].
      destruct fuel as [|fuel]; [lia|]. cbn [get_one_loop].
      destruct (Nat.ltb_spec D (d + 1)); [cbn [fetches]; lia|].
      cbn [mbind prog_bind pbind hash get_node fetches]. rewrite Hdt. cbn [var negb].
      destruct (dec e); cbn [lift mbind prog_bind pbind mret prog_ret fetches]; lia.
    - destruct fuel as [|fuel]; [lia|].
      pose proof Hst as [(rn & Hl)%has_lookup [Hstl Hstr]].
      destruct Hwf as (Hwl & Hwr & Hlt). pose proof (tsplit_lt l r Hlt) as Hs8.
      cbn [get_one_loop tneed]. set (rt := troot H (TNode l r)) in *.
      destruct (Nat.ltb_spec D d) as [Hmd|Hge]; [cbn [fetches]; lia|].
      cbn [mbind prog_bind pbind hash get_node fetches]. rewrite Hl. cbn [var tvar].
      destruct (single_desc Hn k (tmin l) (tsplit l r)) as (m & Hm & Hc); [lia|].
      rewrite Hm. cbn [lift mbind prog_bind pbind]. rewrite Hc. cbn [lift mbind prog_bind pbind].
      destruct (decide (tsplit l r ≤ klcp k (tmin l))) as [Hag|Hag]; [|cbn [mret prog_ret fetches]; lia].
      rewrite choose_zero_ok by done. cbn [lift mbind prog_bind pbind].
      destruct (bit k (tsplit l r)); cbn [negb]; [rewrite IHr by (done || lia)|rewrite IHl by (done || lia)]; lia.
  Qed.
  Lemma gen_proof_loop_fetches fuel k d t acc s : stored H (b_vis B s) t → tpwf t →
    D + 2 ≤ fuel + d → d ≤ D + 1 →
    fetches B H (gen_proof_loop D fuel k d false acc (troot H t)) s = (D + 1 - d) `min` (tneed t k + 1).
  Proof using Hn.
    revert fuel d acc. induction t as [k' e|l IHl r IHr]; intros fuel d acc Hst Hwf Hf Hd.
    - destruct fuel as [|fuel]; [lia|].
      destruct Hst as [(rl & Hl)%has_lookup (rd & Hdt)%has_lookup].
      cbn [gen_proof_loop tneed troot]. destruct (Nat.ltb_spec D d) as [Hlt|Hge]; [cbn [fetches]; lia|].
      cbn [mbind prog_bind pbind hash get_node fetches]. rewrite Hl. cbn [var tvar].
      destruct (decide (k' = k)) as [->|Hne]; [|cbn [mret prog_ret fetches]; lia].
      cbn [mbind prog_bind hash pbind fetches].
      destruct fuel as [|fuel]; [lia|]. cbn [gen_proof_loop].
      destruct (Nat.ltb_spec D (d + 1)); [cbn [fetches]; lia|].
      cbn [mbind prog_bind pbind hash get_node fetches]. rewrite Hdt. cbn [var negb mbind prog_bind hash pbind fetches].
      cbn [mret prog_ret fetches]. lia.
    - destruct fuel as [|fuel]; [lia|].
      pose proof Hst as [(rn & Hl)%has_lookup [Hstl Hstr]].
      destruct Hwf as (Hwl & Hwr & Hlt). pose proof (tsplit_lt l r Hlt) as Hs8.
      cbn [gen_proof_loop tneed]. set (rt := troot H (TNode l r)) in *.
      destruct (Nat.ltb_spec D d) as [Hmd|Hge]; [cbn [fetches]; lia|].
      cbn [mbind prog_bind pbind hash get_node fetches]. rewrite Hl. cbn [var tvar].
      destruct (single_desc Hn k (tmin l) (tsplit l r)) as (m & Hm & Hc); [lia|].
      rewrite Hm. cbn [lift mbind prog_bind pbind]. rewrite Hc. cbn [lift mbind prog_bind pbind].
      destruct (decide (tsplit l r ≤ klcp k (tmin l))) as [Hag|Hag]; [|cbn [mret prog_ret fetches]; lia].
      rewrite choose_zero_ok by done. cbn [lift mbind prog_bind pbind].
      destruct (bit k (tsplit l r)); cbn [negb]; [rewrite IHr by (done || lia)|rewrite IHl by (done || lia)]; lia.
  Qed.
  Lemma tneed_proof t k e : tlookup t k = Some e → tneed t k + 1 = length (tproof H t k).
  Proof.
    induction t as [k' e'|l IHl r IHr]; cbn [tneed tlookup tproof].
    - destruct (decide (k' = k)); done.
    - destruct (decide _); [|done]. destruct (bit _ _); cbn [length]; intros Hl; [apply IHr in Hl|apply IHl in Hl]; lia.
  Qed.
  (** C70 *)
  Theorem verify_hashes root k v proof s : out B H (verify_inclusion_proof enc root k v proof) s = ROk tt →
    length (hlog B H (verify_inclusion_proof enc root k v proof) s) = length proof.
  Proof using.
    clear Hn. destruct proof as [|p0 [|p1 items]]; cbn [verify_inclusion_proof]; try done.
    destruct (enc v) as [e|e|]; cbn [lift mbind prog_bind pbind]; try done.
    unfold out, hlog. cbn [hash mbind prog_bind pbind run].
    destruct (decide _); [|done]. cbn [hash mbind prog_bind pbind run].
    destruct (decide _); [|done]. intros _.
    pose proof (verify_fold_run B H (H (leaf_in k (H (data_in k e)))) items s
      (λ cur, if decide (root = cur) then mret tt else Throw "Proof is invalid")) as Hr.
    cbn [mbind prog_bind] in Hr. rewrite Hr. clear Hr.
    assert (∀ cur its, length (vlog H cur its) = length its) as Hv.
    { intros cur its. revert cur. induction its as [|[h b] its IH]; intros cur; [done|]. cbn [vlog length]. by rewrite IH. }
    destruct (decide _); cbn; rewrite app_length, Hv; cbn; lia.
  Qed.
End ReadWork.

Section ReadLive.
  Context {n : nat} (Hn : 0 < n) (B : backend n) {HB : BackendOk B} (H : list bytes → arr n).
  Context {V : Type} (enc : V → res bytes) (dec : bytes → res V) (Hcodec : codec_ok enc dec).
  (** C70 *)
  Theorem read_fetches st lg r M k v : live B H enc dec st lg r M → no_collision H lg → M !! k = Some v →
    ∃ p, (∀ D, 8 * n + 1 ≤ D → out B H (generate_inclusion_proof D r k) st = ROk p) ∧
      ∀ D, fetches B H (get_one dec D r k) st = (D + 1) `min` length p ∧
        fetches B H (generate_inclusion_proof D r k) st = (D + 1) `min` length p.
  Proof using Hn Hcodec HB.
    intros Hl Hc HM. destruct (live_handle Hn B H enc dec Hcodec st lg r M Hl Hc) as (t & Hr & Hwf & Hst & _ & He).
    cbn [fst snd] in *. subst r.
    pose proof (He k) as Hk. rewrite HM in Hk. inversion Hk as [v' e Hev Heq1 Heq2|]. subst v'.
    assert (tlookup t k = Some e) as Htl by (by rewrite tlookup_tmap).
    exists (reverse (tproof H t k)). rewrite reverse_length, <- (tneed_proof Hn H t k e Htl). split.
    - intros D HD. rewrite (gen_proof_run Hn) by (auto using twf_tpwf).
      pose proof (tneed_depth Hn t k). pose proof (twf_depth t Hwf). rewrite Htl.
      destruct (Nat.ltb_spec D (tneed t k)); [lia|done].
    - intros D. unfold get_one, generate_inclusion_proof.
      rewrite (get_one_loop_fetches Hn), (gen_proof_loop_fetches Hn) by (auto using twf_tpwf with lia).
      by rewrite Nat.sub_0_r.
  Qed.
End ReadLive.

Section Scratch.
  Context {n : nat} (Hn : 0 < n) (B : backend n) (H : list bytes → arr n) {V : Type} (enc : V → res bytes).
  (** C69 *)
  Theorem scratch_hashes st D (ks : list (arr n)) vs r : out B H (insert enc D None ks vs) st = ROk r →
    length (hlog B H (insert enc D None ks vs) st) + 1 = 3 * length ks.
  Proof using Hn.
    unfold insert. destruct (negb _); [done|]. destruct (_ || _); [done|]. intros Ho.
    destruct (insert_sorted_count enc D _ _ _ B H st r Hn Ho) as (rs & _ & _ & Hl & Hp).
    rewrite (Hp eq_refl), sort_keys_length in Hl. lia.
  Qed.
End Scratch.
