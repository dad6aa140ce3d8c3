(** * What any batch inserted into a tree gives
    The root returned by [insert] with no condition on the keys: the tree is cut
    into parts ([kept]), and the new leaves and the parts are joined by their
    least keys ([jroot]).  Neither mentions nodes or the database. *)
From Coq Require Import Strings.Byte NArith.
From stdpp Require Import prelude countable gmap sorting strings.
From Verif Require Import Model Bits Spec Util Trie Store Logic Build Evol Route Reads Insert Update Safe Get
  Hist Claims RefCount RcInsert RcRemove Total Live Regrow Weak Depth Shape Need Counts Exact Cost Outcome Formula Select.

Local Open Scope nat_scope.

Section Spec.
  Context {n : nat} (H : list bytes → arr n).
  Implicit Types (L N : list (arr n * bytes)) (ks : list (arr n)).

  (** The parts of the tree with the pairs [L] that stay as they are when [ks]
      arrive at bit [i]: all of it when none of [ks] is taken to be below the
      first branch, otherwise what stays of the two sides; a pair whose key is
      in [new] is dropped. *)
  Fixpoint kept (new : list (arr n)) (d i : nat) L ks : list (list (arr n * bytes)) :=
    match d with
    | 0 => match L with [] => [] | p :: _ => if decide (p.1 ∈ new) then [] else [L] end
    | S d' =>
        match side false i L, side true i L with
        | [], L1 => kept new d' (S i) L1 ks
        | L0, [] => kept new d' (S i) L0 ks
        | (p :: _) as L0, L1 =>
            match taken i p.1 ks with
            | [] => [L]
            | D =>
                match (cut i D).1 with [] => [L0] | z => kept new d' (S i) L0 z end ++
                match (cut i D).2 with [] => [L1] | o => kept new d' (S i) L1 o end
            end
        end
    end.

  (** A part counts as its first key; its root is that of its pairs. *)
  Definition part_of L : option (arr n * arr n) :=
    match L, root_of H L with p :: _, Some r => Some (p.1, r) | _, _ => None end.
  Definition parts L N : list (arr n * arr n) :=
    ((λ p : arr n * bytes, (p.1, leaf_hash H p.1 p.2)) <$> N) ++ base.omap part_of (kept N.*1 (8 * n) 0 L N.*1).

  Definition pside (b : bool) (i : nat) (X : list (arr n * arr n)) := filter (λ p : arr n * arr n, bit p.1 i = b) X.
  (** As [mroot], for parts. *)
  Fixpoint jroot (d i : nat) (X : list (arr n * arr n)) : option (arr n) :=
    match X, d with
    | [], _ => None
    | p :: _, 0 => Some p.2
    | _, S d' => join H (jroot d' (S i) (pside false i X)) (jroot d' (S i) (pside true i X))
    end.
End Spec.

Section Join.
  Context {n : nat} (H : list bytes → arr n).
  Implicit Types (X Y A C : list (arr n * arr n)) (k a b x y : arr n) (t l r : trie n) (ts : list (trie n)).

  Lemma jroot_nil d i : jroot H d i [] = None.
  Proof. by destruct d. Qed.
  Lemma jroot_step d i X : jroot H (S d) i X = join H (jroot H d (S i) (pside false i X)) (jroot H d (S i) (pside true i X)).
  Proof. destruct X; [|done]. by rewrite !jroot_nil. Qed.
  Lemma jroot_one d i k x : jroot H d i [(k, x)] = Some x.
  Proof.
    revert i. induction d as [|d IH]; intros i; [done|]. rewrite jroot_step. unfold pside.
    rewrite !filter_cons, filter_nil. cbn [fst].
    destruct (bit k i); cbn; rewrite ?decide_True by done; rewrite ?decide_False by done; rewrite jroot_nil, IH; done.
  Qed.
  (** All keys agree before the bit [i]. *)
  Definition pfrom (i : nat) X : Prop := ∀ p q, p ∈ X → q ∈ X → i ≤ klcp p.1 q.1.
  Lemma pfrom_side i (b : bool) X : i < 8 * n → pfrom i X → pfrom (S i) (pside b i X).
  Proof.
    intros Hi Hf p q [Hp Hpx]%elem_of_list_filter [Hq Hqx]%elem_of_list_filter.
    apply klcp_ge; [lia|]. intros j Hj. destruct (decide (j = i)) as [->|]; [congruence|].
    apply klcp_agree. specialize (Hf p q Hpx Hqx). lia.
  Qed.
  Lemma pside_nodup i (b : bool) X : NoDup X.*1 → NoDup (pside b i X).*1.
  Proof. apply nodup_filter_fst. Qed.
  Lemma jroot_perm d : ∀ i X Y, i + d = 8 * n → NoDup X.*1 → pfrom i X → X ≡ₚ Y → jroot H d i X = jroot H d i Y.
  Proof.
    induction d as [|d IH]; intros i X Y Hd Hnd Hf Hp.
    - assert (X = Y) as ->; [|done]. destruct X as [|p [|q X]].
      + by apply Permutation_nil_l in Hp.
      + by apply Permutation_singleton_l in Hp.
      + exfalso. cbn in Hnd. apply NoDup_cons in Hnd as [Hni _]. apply Hni.
        specialize (Hf p q ltac:(by left) ltac:(by right; left)).
        destruct (decide (p.1 = q.1)) as [->|Hne%klcp_lt]; [left|lia].
    - rewrite !jroot_step. f_equal; apply IH; try lia; eauto using pside_nodup.
      + apply pfrom_side; [lia|done].
      + unfold pside. by rewrite Hp.
      + apply pfrom_side; [lia|done].
      + unfold pside. by rewrite Hp.
  Qed.

  (** Joining the two parts that agree longest changes nothing. *)
  Lemma jroot_join d : ∀ i A a x b y C, i + d = 8 * n → pfrom i (A ++ (a, x) :: (b, y) :: C) →
    klcp a b < 8 * n → bit a (klcp a b) = false → bit b (klcp a b) = true →
    (∀ p, p ∈ A ++ C → klcp p.1 a < klcp a b) →
    jroot H d i (A ++ (a, x) :: (b, y) :: C) = jroot H d i (A ++ (a, branch_hash H x y) :: C).
  Proof.
    induction d as [|d IH]; intros i A a x b y C Hd Hf Hs Ha Hb Hlt.
    - exfalso. specialize (Hf (a, x) (b, y)). cbn in Hf. 
      assert (i ≤ klcp a b); [|lia]. apply Hf; rewrite elem_of_app; right; [left|right; left].
    - rewrite !jroot_step. set (s := klcp a b) in *.
      assert (i ≤ s) as His.
      { apply (Hf (a, x) (b, y)); rewrite elem_of_app; right; [left|right; left]. }
      destruct (decide (i = s)) as [->|Hne].
      + assert (A ++ C = []) as HAC.
        { destruct (A ++ C) as [|p X] eqn:E; [done|]. specialize (Hlt p ltac:(by left)).
          assert (s ≤ klcp p.1 a); [|lia]. apply (Hf p (a, x)); rewrite elem_of_app.
          - assert (p ∈ A ++ C) as Hp by (rewrite E; by left). apply elem_of_app in Hp as [?|?]; [by left|right; by do 2 right].
          - right. left. }
        apply app_eq_nil in HAC as [-> ->]. cbn [app].
        assert (bit b s ≠ false) by congruence. assert (bit a s ≠ true) by congruence.
        assert (pside false s [(a, x); (b, y)] = [(a, x)]) as ->.
        { unfold pside. rewrite filter_cons_True by done. rewrite filter_cons_False by done. done. }
        assert (pside true s [(a, x); (b, y)] = [(b, y)]) as ->.
        { unfold pside. rewrite filter_cons_False by done. rewrite filter_cons_True by done. done. }
        assert (pside false s [(a, branch_hash H x y)] = [(a, branch_hash H x y)]) as ->.
        { unfold pside. rewrite filter_cons_True by done. done. }
        assert (pside true s [(a, branch_hash H x y)] = []) as ->.
        { unfold pside. rewrite filter_cons_False by done. done. }
        rewrite !jroot_one, jroot_nil. done.
      + assert (bit b i = bit a i) as Hab by (symmetry; apply klcp_agree; unfold s in *; lia).
        assert (∀ β, jroot H d (S i) (pside β i (A ++ (a, x) :: (b, y) :: C)) =
          jroot H d (S i) (pside β i (A ++ (a, branch_hash H x y) :: C))) as HB; [|by rewrite !HB].
        intros β. pose proof (pfrom_side i β _ ltac:(lia) Hf) as Hf'. unfold pside in *.
        rewrite !filter_app, !filter_cons in *. cbn [fst] in *. rewrite Hab in *.
        destruct (decide (bit a i = β)); [|done].
        apply IH; [lia|done|done|done|done|].
        intros p Hp. apply Hlt. apply elem_of_app in Hp as [Hp|Hp]; apply elem_of_list_filter in Hp as [_ Hp]; apply elem_of_app; auto.
  Qed.

  Definition ref_pair t : arr n * arr n := (tmin t, troot H t).
  Lemma jroot_closed (c : option (arr n)) : mclosed (λ ts, jroot H (8 * n) 0 (ref_pair <$> ts) = c).
  Proof.
    intros ts1 l r ts2 Hso Hp Hq <-. rewrite !fmap_app, !fmap_cons. symmetry.
    rewrite fmap_app in Hso. apply StronglySorted_app_inv in Hso as (H1 & H2 & H12). cbn in H2.
    apply StronglySorted_inv in H2 as [H2 F2]. apply Forall_cons in F2 as [Hlr _].
    apply StronglySorted_inv in H2 as [H2 F3].
    apply klt_iff in Hlr as Hlr'. destruct Hlr' as (Hs & Hbl & Hbr).
    apply jroot_join; try done.
    { intros p q _ _. lia. }
    intros p Hpin. fold (tsplit l r). apply elem_of_app in Hpin as [Hpin|Hpin]; apply elem_of_list_fmap in Hpin as (t & -> & Ht); cbn [fst ref_pair].
    - destruct ts1 as [|z ts1 _] using rev_ind; [by apply elem_of_nil in Ht|]. rewrite last_snoc in Hp. specialize (Hp z eq_refl).
      assert (klt (tmin z) (tmin l)) as Hzl by (apply H12; [rewrite fmap_app, elem_of_app; right; by left|by left]).
      assert (tsplit z l ≠ tsplit l r) as Hne by (by apply klcp_consec_ne).
      apply elem_of_app in Ht as [Ht|Ht%elem_of_list_singleton]; [|subst; unfold tsplit in *; lia].
      rewrite fmap_app in H1. apply StronglySorted_app_inv in H1 as (_ & _ & H1).
      assert (klt (tmin t) (tmin z)) as Htz by (apply H1; [by apply elem_of_list_fmap_1|by left]).
      rewrite (klcp_sorted _ (tmin z)) by done. unfold tsplit in *. lia.
    - destruct ts2 as [|z ts2]; [by apply elem_of_nil in Ht|]. specialize (Hq z eq_refl).
      cbn in F3. apply Forall_cons in F3 as [Hrz _].
      assert (tsplit l r ≠ tsplit r z) as Hne by (by apply klcp_consec_ne).
      assert (klcp (tmin r) (tmin t) ≤ tsplit r z) as Hrt.
      { apply elem_of_cons in Ht as [->|Ht]; [done|]. cbn in H2. apply StronglySorted_inv in H2 as [_ F4].
        rewrite Forall_forall in F4. rewrite (klcp_sorted _ (tmin z)); [unfold tsplit; lia|done|].
        apply F4. by apply elem_of_list_fmap_1. }
      assert (klt (tmin r) (tmin t)) as Hrlt.
      { apply elem_of_cons in Ht as [->|Ht]; [done|]. cbn in H2. apply StronglySorted_inv in H2 as [_ F4].
        rewrite Forall_forall in F4. eapply klt_trans; [exact Hrz|]. apply F4. by apply elem_of_list_fmap_1. }
      rewrite klcp_sym, (klcp_sorted _ (tmin r)) by done. unfold tsplit in *. lia.
  Qed.
  Lemma merged_root ts t : merged ts t → jroot H (8 * n) 0 (ref_pair <$> ts) = Some (troot H t).
  Proof.
    intros Hm. pose proof (Hm _ (jroot_closed (jroot H (8 * n) 0 (ref_pair <$> ts))) eq_refl) as Hr. cbn beta in Hr.
    rewrite <- Hr. apply jroot_one.
  Qed.
End Join.

Section Kept.
  Context {n : nat} (H : list bytes → arr n).
  Implicit Types (L : list (arr n * bytes)) (ks new : list (arr n)) (t l r : trie n).

  Inductive plevel (i : nat) t : Prop :=
  | plevel_same b : from (S i) t → side b i (tleaves t) = tleaves t → side (negb b) i (tleaves t) = [] → plevel i t
  | plevel_node l r : t = TNode l r → i = tsplit l r → from (S i) l → from (S i) r →
      side false i (tleaves t) = tleaves l → side true i (tleaves t) = tleaves r → plevel i t.
  Lemma plevel_of i t : twf t → i < 8 * n → from i t → plevel i t.
  Proof.
    intros Hwf Hi Hf.
    assert (∀ t b, (∀ a, a ∈ tkeys t → bit a i = b) → side b i (tleaves t) = tleaves t ∧ side (negb b) i (tleaves t) = []) as Hside.
    { intros t' b Hb. split.
      - apply side_all. intros [k e] Hin. apply Hb, elem_of_tkeys. eauto.
      - apply side_none. intros [k e] Hin. rewrite negb_involutive. apply Hb, elem_of_tkeys. eauto. }
    assert (from (S i) t → plevel i t) as Hsame.
    { intros Hs. destruct (Hside t _ (from_bits i t _ Hs eq_refl)). by eapply plevel_same. }
    destruct t as [k e|l r].
    - apply Hsame. intros a b Ha Hb. cbn in Ha, Hb. apply elem_of_list_singleton in Ha as ->, Hb as ->.
      rewrite klcp_refl. lia.
    - pose proof (from_split i l r Hf) as Hs. destruct (decide (i = tsplit l r)) as [->|Hne].
      2:{ apply Hsame, from_more; [done|lia]. }
      destruct (from_sides _ l r Hwf eq_refl) as [Hfl Hfr]. pose proof Hwf as (Hwl & Hwr & Hlt & _).
      destruct (tsplit_bits l r Hlt) as [Hbl Hbr].
      destruct (Hside l false (from_bits _ l _ Hfl Hbl)) as [L1 L2], (Hside r true (from_bits _ r _ Hfr Hbr)) as [R1 R2].
      eapply plevel_node; try done; cbn [tleaves]; rewrite side_app; cbn [negb] in *.
      + by rewrite L1, R2, app_nil_r.
      + by rewrite L2, R1.
  Qed.

  Lemma leaves_head t : ∃ e L, tleaves t = (tmin t, e) :: L.
  Proof.
    induction t as [k e|l [e [L IH]] r _]; cbn [tleaves tmin]; [by exists e, []|].
    rewrite IH. by exists e, (L ++ tleaves r).
  Qed.
  Lemma kept_trie new d : 0 < n → ∀ i t ks, twf t → i + d = 8 * n → from i t → ksorted ks → ks ≠ [] →
    kept new d i (tleaves t) ks = tleaves <$> wdec (λ k, bool_decide (k ∈ new)) t ks.
  Proof.
    intros Hn. induction d as [|d IH]; intros i t ks Hwf Hd Hf Hso Hne.
    - destruct t as [k e|l r].
      + cbn [kept tleaves wdec fst]. destruct (decide (k ∈ new)); [by rewrite bool_decide_true|by rewrite bool_decide_false].
      + pose proof (from_split i l r Hf). pose proof Hwf as (_&_&Hlt&_). pose proof (tsplit_lt l r Hlt). lia.
    - cbn [kept]. destruct (plevel_of i t Hwf ltac:(lia) Hf) as [b Hs Hb He|l r -> -> Hfl Hfr Hl Hr].
      + pose proof (IH (S i) t ks Hwf ltac:(lia) Hs Hso Hne) as IHt. destruct (leaves_head t) as (e & L & E).
        destruct b; cbn [negb] in He; rewrite He, Hb.
        * done.
        * rewrite E in *. done.
      + pose proof Hwf as (Hwl & Hwr & Hlt & _). pose proof (tsplit_lt l r Hlt) as Hs8. rewrite Hl, Hr.
        destruct (leaves_head l) as (e0 & L0 & E0), (leaves_head r) as (e1 & L1 & E1).
        rewrite E0, E1. cbv beta iota zeta. rewrite <- E0, <- E1. cbn [fst].
        rewrite taken_desc by done. cbn [wdec].
        pose proof (node_desc_sorted ks (tsplit l r) (tmin l) Hn Hs8 Hso) as HsD.
        destruct (node_desc ks (tsplit l r) (tmin l)) as [|dk D] eqn:ED; [done|].
        rewrite cut_split by done.
        destruct (node_split_app (dk :: D) (tsplit l r) Hs8) as [_ Happ].
        destruct (node_split (dk :: D) (tsplit l r)) as [zs os] eqn:Ezo. cbn [fst snd] in *.
        assert (ksorted zs ∧ ksorted os) as [Hz Ho].
        { rewrite <- Happ in HsD. split; apply (StronglySorted_app_inv _ _ _ HsD). }
        rewrite fmap_app. f_equal.
        * destruct zs as [|z zs]; [done|]. apply IH; done || lia.
        * destruct os as [|o os]; [done|]. apply IH; done || lia.
  Qed.
  Lemma kept_empty new d i ks : kept (n := n) new d i [] ks = [].
  Proof. revert i. induction d as [|d IH]; intros i; [done|]. cbn. apply IH. Qed.
  Lemma reach_empty d i ks : reach (n := n) d i [] ks = 0.
  Proof. revert i. induction d as [|d IH]; intros i; [done|]. cbn. apply IH. Qed.

  Lemma part_trie t : twf t → part_of H (tleaves t) = Some (tmin t, troot H t).
  Proof.
    intros Hwf. assert (root_of H (tleaves t) = Some (troot H t)) as Hr.
    { apply mroot_trie; [done|done|lia|intros a b _ _; lia]. }
    destruct (leaves_head t) as (e & L & E). rewrite E in *. unfold part_of. by rewrite Hr.
  Qed.
  Lemma parts_tries (ps : list (trie n)) : Forall twf ps → base.omap (part_of H) (tleaves <$> ps) = ref_pair H <$> ps.
  Proof. induction 1 as [|t ps Ht _ IH]; [done|]. cbn. rewrite part_trie by done. f_equal. exact IH. Qed.
End Kept.

Section Result.
  Context {n : nat} (Hn : 0 < n) (B : backend n) {HB : BackendOk B} (H : list bytes → arr n).
  Context {V : Type} (enc : V → res bytes) (dec : bytes → res V) (Hcodec : codec_ok enc dec).
  Implicit Types (st : b_st B) (k : arr n) (ks : list (arr n)) (vs : list V) (M : gmap (arr n) V) (t : trie n).

  Lemma new_pairs (vm : gmap (arr n) V) (N : list (arr n * bytes)) es :
    (∀ p, p ∈ N → encg enc vm p.1 = Some p.2) → Forall2 (λ k e, encg enc vm k = Some e) N.*1 es →
    ref_pair H <$> new_tries N.*1 es = (λ p : arr n * bytes, (p.1, leaf_hash H p.1 p.2)) <$> N.
  Proof.
    revert es. induction N as [|p N IH]; intros es HN Hes; cbn in Hes.
    - by inversion Hes.
    - apply Forall2_cons_inv_l in Hes as (e & es' & He & Hes & ->).
      rewrite (HN p) in He by left. injection He as <-. cbn. f_equal. apply IH; [|done]. intros q Hq. apply HN. by right.
  Qed.
  Lemma zip_encg ks vs es k e : NoDup ks → length ks = length vs → Forall2 (λ v e, enc v = Ok e) vs es →
    (k, e) ∈ zip ks es → encg enc (value_map_of ks vs) k = Some e.
  Proof.
    intros Hnd Hlen Hes [i Hi]%elem_of_list_lookup. rewrite lookup_zip_with in Hi.
    destruct (ks !! i) as [k'|] eqn:Ek; [|done]. cbn in Hi. destruct (es !! i) as [e'|] eqn:Ee; [|done]. cbn in Hi.
    injection Hi as -> ->. destruct (Forall2_lookup_r _ _ _ _ _ Hes Ee) as (v & Ev & He).
    apply encg_Some. exists v. split; [|done]. rewrite value_map_zip by done.
    apply elem_of_list_to_map_1; [by rewrite fst_zip by lia|].
    apply elem_of_list_lookup. exists i. by rewrite lookup_zip_with, Ek, Ev.
  Qed.

  Theorem insert_parts st lg hs D prev M ks vs es L N :
    hist B H enc dec st lg hs ∨ whist B H enc dec st lg hs →
    no_collision H (lg ++ hlog B H (insert enc D prev ks vs) st) → prev_holds hs prev M →
    StronglySorted klt L.*1 ∧ (∀ k e, (k, e) ∈ L ↔ ∃ v, M !! k = Some v ∧ enc v = Ok e) →
    length ks = length vs → ks ≠ [] → Forall2 (λ v e, enc v = Ok e) vs es →
    StronglySorted arr_le N.*1 → N ≡ₚ zip ks es →
    if reach (8 * n) 0 L.*1 N.*1 <=? D then
      if decide (NoDup (parts H L N).*1) then
        ∃ r, jroot H (8 * n) 0 (parts H L N) = Some r ∧ out B H (insert enc D prev ks vs) st = ROk r
      else out B H (insert enc D prev ks vs) st = RErr "Attempted to insert item with duplicate keys"
    else out B H (insert enc D prev ks vs) st = RErr "Depth of merkle tree exceeded".
  Proof using Hn Hcodec HB.
    intros Hh Hc Hp [HsL HL] Hlen Hne Hes HsN HN. set (S := lg ++ _) in *.
    destruct (known_J Hn B H enc dec Hcodec S st lg hs Hh Hc) as [Hf HJ]; [intros; apply elem_of_app; by left|].
    assert (∀ x, x ∈ hlog B H (insert enc D prev ks vs) st → x ∈ S) as HS by (intros; apply elem_of_app; by right).
    clearbody S. revert HS. unfold insert.
    destruct (Nat.eqb_spec (length ks) (length vs)) as [_|?]; [|done]. simpl negb. cbn iota.
    destruct (Nat.eqb_spec (length ks) 0) as [Hz|Hne1]; [by apply length_zero_iff_nil in Hz|].
    destruct (Nat.eqb_spec (length vs) 0) as [|Hne2]; [lia|]. simpl orb. cbn iota. intros HS.
    destruct (prev_old H enc S _ hs prev M Hf Hp) as (old & -> & Hok & Hwf & He).
    assert (∀ k, k ∈ sort_keys ks → is_Some (value_map_of ks vs !! k)) as Hvm.
    { intros k Hk. apply value_map_some; [done|done|]. by apply elem_of_sort_keys. }
    assert (sort_keys ks ≠ []) as Hsne.
    { intros Hnil. apply Hne1. rewrite <- sort_keys_length, Hnil. done. }
    assert (length vs = length es) as Hlve by (by eapply Forall2_length).
    assert (N.*1 = sort_keys ks) as HNk.
    { eapply (StronglySorted_unique arr_le); [done|apply sort_keys_sorted|]. rewrite HN, sort_keys_perm, fst_zip by lia. done. }
    assert (L = match old with Some t => tleaves t | None => [] end) as ->.
    { destruct old as [t|].
      - apply klt_sorted_unique; [done|by apply twf_sorted|]. intros [k e]. rewrite HL, <- (tmap_lookup t k e Hwf).
        specialize (He k). cbn [omap] in He. split.
        + intros (v & Hv & Hev). rewrite Hv in He. inversion He; subst. congruence.
        + intros Ht. rewrite Ht in He. inversion He as [v e' Hev|]; subst. eauto.
      - cbn in Hp. subst M. destruct L as [|[k e] L]; [done|]. exfalso.
        destruct (HL k e) as [Hx _]. destruct Hx as (v & Hv & _); [by left|]. by rewrite lookup_empty in Hv. }
    assert (parts H match old with Some t => tleaves t | None => [] end N =
      ((λ p : arr n * bytes, (p.1, leaf_hash H p.1 p.2)) <$> N) ++ (ref_pair H <$> olddec old (sort_keys ks))) as HP.
    { unfold parts. f_equal. rewrite HNk. destruct old as [t|]; cbn [olddec].
      - rewrite kept_trie; [|done|done|lia|intros a b _ _; lia|apply sort_keys_sorted|done]. apply parts_tries.
        apply Forall_forall. intros p Hpp. eapply subtrie_twf; [by eapply wdec_sub|done].
      - by rewrite kept_empty. }
    rewrite HP. clear HP.
    assert (reach (8 * n) 0 (match old with Some t => tleaves t | None => [] end).*1 N.*1 = olddep old (sort_keys ks)) as ->.
    { rewrite HNk. destruct old as [t|]; cbn [olddep]; [|by apply reach_empty].
      apply (found_trie (8 * n) Hn 0 t); [done|done|lia|intros a b _ _; lia|apply sort_keys_sorted|done]. }
    rewrite fmap_app.
    assert (((λ p : arr n * bytes, (p.1, leaf_hash H p.1 p.2)) <$> N).*1 = sort_keys ks) as ->.
    { rewrite <- HNk, <- list_fmap_compose. done. }
    rewrite <- list_fmap_compose. change (fst ∘ ref_pair H) with (tmin (n := n)).
    pose proof (insert_sorted_wp_i Hn H (λ x, x ∈ S) Hc no_floor (shallow H (λ x, x ∈ S)) (shallow_keeps H S Hc) B enc (enc_no_panic _ _ Hcodec) D
      (sort_keys ks) (value_map_of ks vs) old st HJ Hok (sort_keys_sorted ks) Hsne Hvm
      ltac:(intros es' ts _ _ _ x bs1 l0 r0 bs2 _ _ _ _ _ _; apply Nat.le_0_l)) as Hw.
    apply wp_run in Hw; [|done]. destruct (out B H _ st) as [r|er| |]; try done.
    - destruct Hw as (es' & m' & P' & t & ts & -> & Hes' & _ & _ & _ & _ & _ & Hts & Hsort & _ & Hmg & Hd).
      assert (length (sort_keys ks) = length es') as Hle by (by eapply Forall2_length).
      pose proof (result_nodup (sort_keys ks) es' old Hle ts Hts Hsort) as Hnd.
      destruct (Nat.leb_spec (olddep old (sort_keys ks)) D); [|lia]. rewrite decide_True by done.
      exists (troot H t). split; [|done]. rewrite <- (merged_root H ts t Hmg).
      apply jroot_perm; [lia| |intros p q _ _; lia|].
      + rewrite fmap_app, <- !list_fmap_compose. change (fst ∘ ref_pair H) with (tmin (n := n)).
        change (fst ∘ _) with (fst (A := arr n) (B := bytes)). by rewrite HNk.
      + rewrite Hts, fmap_app. apply Permutation_app_tail. rewrite <- HNk in Hes' |- *.
        rewrite (new_pairs (value_map_of ks vs)); [done| |done].
        intros [k e] Hin. cbn [fst snd]. rewrite HN in Hin. apply (zip_encg ks vs es); try done.
        rewrite <- (sort_keys_perm ks). apply NoDup_app in Hnd. tauto.
    - destruct Hw as (_ & [(k & v & _ & Hv & Her)|[(-> & Hd)|(-> & Hnd & Hd)]]).
      + apply vm_value in Hv. apply elem_of_list_lookup in Hv as [i Hi].
        destruct (Forall2_lookup_l _ _ _ _ _ Hes Hi) as (e & _ & Hek). congruence.
      + destruct (Nat.leb_spec (olddep old (sort_keys ks)) D); [lia|done].
      + destruct (Nat.leb_spec (olddep old (sort_keys ks)) D); [|lia]. by rewrite decide_False.
  Qed.
End Result.

Section Same.
  Context {n : nat} (Hn : 0 < n) {V : Type}.

  Lemma prev_pairs (B : backend n) {HB : BackendOk B} (H : list bytes → arr n) (enc : V → res bytes) (dec : bytes → res V) st lg hs prev M :
    codec_ok enc dec → hist B H enc dec st lg hs ∨ whist B H enc dec st lg hs → no_collision H lg → prev_holds hs prev M →
    ∃ L, StronglySorted klt L.*1 ∧ ∀ k e, (k, e) ∈ L ↔ ∃ v, M !! k = Some v ∧ enc v = Ok e.
  Proof using Hn.
    intros Hcodec Hh Hc Hp. destruct (known_J Hn B H enc dec Hcodec lg st lg hs Hh Hc) as [Hf HJ]; [done|].
    destruct (prev_old H enc lg _ hs prev M Hf Hp) as (old & -> & Hok & Hwf & He).
    exists (match old with Some t => tleaves t | None => [] end). destruct old as [t|].
    - split; [by apply twf_sorted|]. intros k e. rewrite <- (tmap_lookup t k e Hwf).
      specialize (He k). cbn [omap] in He. split.
      + intros Ht. rewrite Ht in He. inversion He as [v e' Hev|]; subst. eauto.
      + intros (v & Hv & Hev). rewrite Hv in He. inversion He; subst. congruence.
    - cbn in Hp. subst M. split; [constructor|]. intros k e. split; [by intros ?%elem_of_nil|].
      intros (v & Hv & _). by rewrite lookup_empty in Hv.
  Qed.

  (** Two databases, however they came about, with the same contents below the
      given root: the same batch gives the same root or the same error. *)
  Theorem insert_same (H : list bytes → arr n) (enc : V → res bytes)
    (B1 : backend n) (HB1 : BackendOk B1) (dec1 : bytes → res V) (B2 : backend n) (HB2 : BackendOk B2) (dec2 : bytes → res V)
    st1 lg1 hs1 prev1 ks1 vs1 st2 lg2 hs2 prev2 ks2 vs2 M D :
    codec_ok enc dec1 → codec_ok enc dec2 →
    hist B1 H enc dec1 st1 lg1 hs1 ∨ whist B1 H enc dec1 st1 lg1 hs1 →
    hist B2 H enc dec2 st2 lg2 hs2 ∨ whist B2 H enc dec2 st2 lg2 hs2 →
    no_collision H (lg1 ++ hlog B1 H (insert enc D prev1 ks1 vs1) st1) →
    no_collision H (lg2 ++ hlog B2 H (insert enc D prev2 ks2 vs2) st2) →
    prev_holds hs1 prev1 M → prev_holds hs2 prev2 M →
    length ks1 = length vs1 → length ks2 = length vs2 → zip ks1 vs1 ≡ₚ zip ks2 vs2 →
    (∀ v, v ∈ vs1 → ∃ e, enc v = Ok e) →
    out B1 H (insert enc D prev1 ks1 vs1) st1 = out B2 H (insert enc D prev2 ks2 vs2) st2.
  Proof using Hn.
    intros Hd1 Hd2 Hh1 Hh2 Hc1 Hc2 Hp1 Hp2 Hl1 Hl2 Hz Henc.
    assert (ks1 ≡ₚ ks2) as Hks.
    { rewrite <- (fst_zip ks1 vs1), <- (fst_zip ks2 vs2) by lia. by rewrite Hz. }
    assert (vs1 ≡ₚ vs2) as Hvs.
    { rewrite <- (snd_zip ks1 vs1), <- (snd_zip ks2 vs2) by lia. by rewrite Hz. }
    destruct (decide (ks1 = [])) as [->|Hne].
    { apply Permutation_nil_l in Hks as <-. symmetry in Hl1, Hl2. apply length_zero_iff_nil in Hl1 as ->, Hl2 as ->. done. }
    assert (ks2 ≠ []) as Hne2.
    { intros ->. by apply Permutation_nil_r in Hks. }
    destruct (prev_pairs B1 H enc dec1 st1 lg1 hs1 prev1 M) as (L & HL); try done.
    { intros a b Ha Hb. apply Hc1; apply elem_of_app; by left. }
    set (ev := λ v, match enc v with Ok e => e | _ => [] end).
    assert (∀ vs, (∀ v, v ∈ vs → ∃ e, enc v = Ok e) → Forall2 (λ v e, enc v = Ok e) vs (ev <$> vs)) as Hev.
    { intros vs Hall. apply Forall2_fmap_r, Forall_Forall2_diag, Forall_forall. intros v Hv.
      destruct (Hall v Hv) as [e He]. unfold ev. cbn. by rewrite He. }
    assert (∀ ks vs, zip ks (ev <$> vs) = (λ p : arr n * V, (p.1, ev p.2)) <$> zip ks vs) as Hzz.
    { induction ks as [|k ks IH]; intros [|v vs]; try done. cbn. f_equal. apply IH. }
    destruct (Permutation_map_inv fst (zip ks1 (ev <$> vs1)) (l1 := sort_keys ks1)) as (N & HN & HpN).
    { change (map fst) with (fmap (M := list) (@fst (arr n) bytes)). rewrite fst_zip by (rewrite fmap_length; lia). apply sort_keys_perm. }
    change (map fst N) with (N.*1) in HN.
    pose proof (sort_keys_sorted ks1) as Hso. rewrite HN in Hso.
    pose proof (insert_parts Hn B1 H enc dec1 Hd1 st1 lg1 hs1 D prev1 M ks1 vs1 (ev <$> vs1) L N Hh1 Hc1 Hp1 HL Hl1 Hne
      (Hev _ Henc) Hso (Permutation_sym HpN)) as G1.
    pose proof (insert_parts Hn B2 H enc dec2 Hd2 st2 lg2 hs2 D prev2 M ks2 vs2 (ev <$> vs2) L N Hh2 Hc2 Hp2 HL Hl2 Hne2
      ltac:(apply Hev; intros v Hv; apply Henc; by rewrite Hvs) Hso
      ltac:(by rewrite <- HpN, !Hzz, Hz)) as G2.
    destruct (_ <=? D); [|by rewrite G1, G2]. destruct (decide _); [|by rewrite G1, G2].
    destruct G1 as (r1 & E1 & ->), G2 as (r2 & E2 & ->). congruence.
  Qed.
End Same.
