(** * The depth limit a key needs; the trees below a root *)
From Coq Require Import Strings.Byte NArith.
From stdpp Require Import prelude countable gmap sorting strings.
From Verif Require Import Model Bits Spec Util Trie Store Logic Build Evol Route Reads Insert Update Safe Get
  Hist Claims RefCount RcInsert RcRemove Total Live Regrow Weak Depth Shape.

Local Open Scope nat_scope.

Section Need.
  Context {n : nat} (Hn : 0 < n) (B : backend n) {HB : BackendOk B} (H : list bytes → arr n).
  Context {V : Type} (enc : V → res bytes) (dec : bytes → res V) (Hcodec : codec_ok enc dec).
  Implicit Types (st : b_st B) (lg L : list (list bytes)) (k r : arr n) (ks : list (arr n)) (vs : list V).
  Implicit Types (M : gmap (arr n) V) (hs : list (arr n * gmap (arr n) V)) (t l : trie n).
  Notation Sof L := (λ x, x ∈ L).
  Notation live := (live B H enc dec).

  Lemma live_handle st lg r M : live st lg r M → no_collision H lg → handle_ok H enc lg (b_vis B st) (r, M).
  Proof using Hn Hcodec HB.
    intros (hs & [Hh|Hh] & Hin) Hc; [by eapply hist_handle|].
    destruct (whist_inv Hn B H enc dec Hcodec lg st lg hs Hc Hh ltac:(done)) as (hts & D & Hi).
    destruct (winv_handles B H enc lg st hs hts D Hc Hi) as [_ Hf]. rewrite Forall_forall in Hf. by apply Hf.
  Qed.

  Lemma present_need t k : twf t → k ∈ tkeys t →
    tneed t k = wdep t [k] + 1 ∧ length (tproof H t k) = tneed t k + 1 ∧ tneed t k ≤ length (tkeys t).
  Proof using Hn.
    induction t as [k' e'|l IHl r IHr]; intros Hwf Hk.
    - apply elem_of_list_singleton in Hk. cbn in Hk. subst k'. cbn. rewrite decide_True by done. cbn. lia.
    - pose proof (twf_agree l r k Hwf Hk) as Hag. rewrite wdep_single by done. cbn [tneed tproof].
      rewrite !decide_True by done. pose proof Hwf as (Hl & Hr & _).
      pose proof (tkeys_length l) as Ll. pose proof (tkeys_length r) as Lr.
      pose proof (tsize_pos l). pose proof (tsize_pos r).
      rewrite tkeys_node in *. rewrite app_length. apply elem_of_app in Hk as [Hk|Hk].
      + rewrite (proj2 (twf_left l r k Hwf Hk)). destruct IHl as (-> & ? & ?); try done. cbn [length]. lia.
      + rewrite (proj2 (proj2 (twf_right l r k Hwf Hk))). destruct IHr as (-> & ? & ?); try done. cbn [length]. lia.
  Qed.

  Lemma encs_size M t : twf t → encs enc M (tmap t) → size M = length (tkeys t).
  Proof using.
    intros Hwf He. transitivity (size (dom M)); [by rewrite size_dom|].
    assert (dom M = list_to_set (C := gset (arr n)) (tkeys t)) as ->.
    { apply set_eq. intros x. rewrite elem_of_dom, elem_of_list_to_set, <- tmap_has.
      apply (encs_has enc M (tmap t) x He). }
    rewrite size_list_to_set; [done|by apply twf_nodup].
  Qed.

  (** What a key needs is the length of its proof. *)
  Theorem need_exact st lg r M k v : live st lg r M → no_collision H lg → M !! k = Some v →
    ∃ p, 2 ≤ length p ∧ length p ≤ 8 * n + 2 ∧ length p ≤ size M + 1 ∧ ∀ D,
      out B H (generate_inclusion_proof D r k) st =
        (if length p <=? D + 1 then ROk p else RErr "Depth limit exceeded") ∧
      out B H (get_one dec D r k) st =
        (if length p <=? D + 1 then ROk (Some v) else RErr "Depth limit exceeded") ∧
      out B H (get dec D r [k]) st =
        (if length p <=? D + 2 then ROk {[k := Some v]} else RErr "Depth of merkle tree exceeded").
  Proof using Hn Hcodec HB.
    intros Hl Hc HM. destruct (live_handle st lg r M Hl Hc) as (t & Hr & Hwf & Hst & _ & He). cbn [fst snd] in *. subst r.
    pose proof (encs_dec enc dec Hcodec M _ k He) as Hd.
    destruct (tmap t !! k) as [e|] eqn:Hk; [|congruence]. destruct Hd as (v' & Hv' & HM').
    assert (v' = v) as -> by congruence.
    assert (k ∈ tkeys t) as Hin by (apply tmap_has; unfold has_key; rewrite Hk; by eexists).
    destruct (present_need t k Hwf Hin) as (Hw & Hp & Hsz).
    exists (reverse (tproof H t k)). rewrite reverse_length, Hp.
    pose proof (tneed_depth Hn t k). pose proof (twf_depth t Hwf).
    pose proof (encs_size M t Hwf He) as Hsize.
    split_and!; [lia|lia|lia|]. intros D. split_and!.
    - rewrite (gen_proof_run Hn) by (auto using twf_tpwf). rewrite tlookup_tmap, Hk by done.
      destruct (Nat.ltb_spec D (tneed t k)), (Nat.leb_spec (tneed t k + 1) (D + 1)); (done || lia).
    - unfold out. rewrite (get_one_run Hn) by (auto using twf_tpwf). rewrite tlookup_tmap, Hk, Hv' by done.
      destruct (Nat.ltb_spec D (tneed t k)), (Nat.leb_spec (tneed t k + 1) (D + 1)); (done || lia).
    - pose proof (get_wp Hn H B dec (dec_no_panic _ _ Hcodec) D t [k] st Hst (twf_tpwf t Hwf)) as Hg.
      change (sort_keys [k]) with [k] in Hg. apply wp_run in Hg; [|by intros].
      set (o := out B H (get dec D (troot H t) [k]) st) in *. clearbody o.
      destruct o as [lm|er| |]; try done.
      + destruct Hg as (_ & [Hdom _] & Hex & Hle).
        destruct (Nat.leb_spec (tneed t k + 1) (D + 2)); [|lia]. f_equal. apply map_eq. intros x.
        destruct (decide (x = k)) as [->|Hx].
        * rewrite lookup_singleton, Hex; [|done|left; apply hazard_single|by left].
          unfold dec_opt. by rewrite Hk, Hv'.
        * rewrite lookup_singleton_ne by done. apply Hdom. by intros ?%elem_of_list_singleton.
      + destruct Hg as (_ & [(-> & Hlt)|(k1 & e1 & Hin1 & Hde)]).
        * destruct (Nat.leb_spec (tneed t k + 1) (D + 2)); [lia|done].
        * destruct (tleaves_decodes enc dec Hcodec t M k1 e1) as (v1 & Hv1 & _); try done. congruence.
  Qed.

  (** Overwriting a pair with [insert_one] needs no more than reading it with [get]. *)
  Theorem overwrite_need st lg hs r M k v p D0 v' D : hist B H enc dec st lg hs →
    no_collision H (lg ++ hlog B H (insert_one enc D (Some r) k v') st) → (r, M) ∈ hs → M !! k = Some v →
    out B H (generate_inclusion_proof D0 r k) st = ROk p → (∃ e, enc v' = Ok e) →
    if length p <=? D + 2 then ∃ r', out B H (insert_one enc D (Some r) k v') st = ROk r'
    else out B H (insert_one enc D (Some r) k v') st = RErr "Depth of merkle tree exceeded".
  Proof using Hn Hcodec HB.
    intros Hh Hc Hin HM Hp [e' He']. set (L := lg ++ _) in *.
    assert (hinv B H enc L st hs) as Hi by (eapply hist_hinv; eauto; intros; apply elem_of_app; by left).
    pose proof Hi as [HJ Hf]. apply J_rebase in HJ. rewrite Forall_forall in Hf.
    destruct (Hf _ Hin) as (t & Hr & Hwf & Hst & Hpre & He). cbn [fst snd] in *. subst r.
    assert (k ∈ tkeys t) as Hk by (apply tmap_has, (encs_has enc M (tmap t) k He); by eexists).
    destruct (present_need t k Hwf Hk) as (Hw & Hl & _).
    assert (length p = tneed t k + 1) as ->.
    { rewrite (gen_proof_run Hn) in Hp by (auto using twf_tpwf). destruct (D0 <? tneed t k); [done|].
      destruct (tlookup t k); [|done]. injection Hp as <-. by rewrite reverse_length. }
    pose proof (insert_sorted_wp Hn H (Sof L) Hc B enc (enc_no_panic _ _ Hcodec) D [k] {[k := v']} (Some t) st HJ) as Hwp.
    specialize (Hwp ltac:(split_and!; auto using twf_tpwf) ltac:(repeat constructor) ltac:(done)).
    specialize (Hwp ltac:(intros x ->%elem_of_list_singleton; rewrite lookup_singleton; by eexists)).
    cbn [fmap option_fmap option_map] in Hwp.
    change (insert_sorted enc D (Some (troot H t)) [k] {[k := v']}) with (insert_one enc D (Some (troot H t)) k v') in Hwp.
    apply wp_run in Hwp; [|intros; apply elem_of_app; by right].
    destruct (out B H (insert_one enc D (Some (troot H t)) k v') st) as [r'|er| |]; try done.
    - destruct Hwp as (es & m' & P' & t' & ts & _ & _ & _ & _ & _ & _ & _ & _ & _ & _ & _ & Hdep). cbn [olddep] in Hdep.
      destruct (Nat.leb_spec (tneed t k + 1) (D + 2)); [eauto|lia].
    - destruct Hwp as (_ & [(x & v1 & Hx & Hv1 & Herr)|[(-> & Hd)|(_ & Hnd)]]).
      + apply elem_of_list_singleton in Hx as ->. rewrite lookup_singleton in Hv1. congruence.
      + cbn [olddep] in Hd. destruct (Nat.leb_spec (tneed t k + 1) (D + 2)); [lia|done].
      + exfalso. apply Hnd. apply (mild_nodup Hn [k] (Some t)); try done; [repeat constructor|apply NoDup_singleton|left; apply hazard_single].
  Qed.

  (** Inserting pairs that are there changes nothing: no condition on the keys. *)
  Theorem reinsert st lg hs r M ks vs D : hist B H enc dec st lg hs →
    no_collision H (lg ++ hlog B H (insert enc D (Some r) ks vs) st) → (r, M) ∈ hs →
    length ks = length vs → ks ≠ [] → NoDup ks → (∀ k v, (k, v) ∈ zip ks vs → M !! k = Some v) → 8 * n ≤ D →
    out B H (insert enc D (Some r) ks vs) st = ROk r.
  Proof using Hn Hcodec HB.
    intros Hh Hc Hin Hlen Hne Hnd Hpairs HD.
    assert (∀ k, k ∈ ks → ∃ v, (k, v) ∈ zip ks vs) as Hz.
    { intros k Hk. rewrite <- (fst_zip ks vs) in Hk by lia. apply elem_of_list_fmap in Hk as ([k' v] & -> & Hk). eauto. }
    assert (benign M ks) as Hb.
    { apply hazard_present. intros k Hk. destruct (Hz k Hk) as [v Hv]. eexists. eauto. }
    assert (updated M ks vs = M) as HM.
    { unfold updated. apply map_eq. intros k. destruct (M !! k) as [v|] eqn:Hk.
      - destruct ((list_to_map (zip ks vs) : gmap (arr n) V) !! k) as [v'|] eqn:Hl.
        + rewrite (lookup_union_Some_l _ _ _ v'); [|done]. apply elem_of_list_to_map_2 in Hl. apply Hpairs in Hl. congruence.
        + by rewrite lookup_union_r.
      - apply lookup_union_None. split; [|done].
        destruct ((list_to_map (zip ks vs) : gmap (arr n) V) !! k) as [v'|] eqn:Hl; [|done].
        apply elem_of_list_to_map_2, Hpairs in Hl. congruence. }
    destruct (insert_total Hn B H enc dec Hcodec st lg hs D (Some r) M ks vs) as (r' & Hout & Hh' & _); try done; [by left| |by right|].
    - intros v Hv. apply elem_of_list_lookup in Hv as [i Hv].
      assert (∃ k, ks !! i = Some k) as [k Hk].
      { apply lookup_lt_is_Some. rewrite Hlen. by eapply lookup_lt_Some. }
      assert (M !! k = Some v) as HMk.
      { apply Hpairs. apply elem_of_list_lookup. exists i. by rewrite lookup_zip_with, Hk, Hv. }
      destruct (live_handle st lg r M) as (t & _ & _ & _ & _ & He).
      { exists hs. split; [by left|done]. }
      { intros x y Hx Hy. apply Hc; apply elem_of_app; by left. }
      specialize (He k). cbn [snd] in He. rewrite HMk in He. inversion He. eauto.
    - rewrite Hout. f_equal. rewrite HM in Hh'.
      eapply (root_determined Hn B B H enc dec Hcodec _ _ _ _ _ _ r' r M Hh' Hh'); try done; [by left|by right].
  Qed.

  (** ** The trees below a root *)
  Lemma sub_handle L m t u M : twf t → stored H m t → Forall (Sof L) (tpre H t) → encs enc M (tmap t) → subtrie u t →
    ∀ M', (∀ x, M' !! x = if decide (x ∈ tkeys u) then M !! x else None) → handle_ok H enc L m (troot H u, M').
  Proof using.
    intros Hwf Hst Hpre He Hu M' HM. exists u. cbn [fst snd]. split_and!; [done|by eapply subtrie_twf|by eapply subtrie_stored| |].
    - by eapply (subtrie_pre H).
    - intros x. rewrite HM. destruct (decide (x ∈ tkeys u)) as [Hx|Hx].
      + assert (tmap u !! x = tmap t !! x) as ->; [|apply He].
        apply elem_of_tkeys in Hx as [e Hx].
        transitivity (Some e); [|symmetry]; apply tmap_lookup; try done; [by eapply subtrie_twf|by eapply subtrie_leaves].
      + rewrite (proj2 (tmap_lookup_None u x) Hx). constructor.
  Qed.
  Theorem below_serves st lg r M x rf : live st lg r M → no_collision H lg → rtc (child (b_vis B st)) r x →
    (∀ c z o si bk, b_vis B st !! x = Some (Node rf (VBranch c z o si bk)) →
       let M' := filter (λ kv, si ≤ klcp kv.1 bk) M in
       c = size M' ∧ bk ∈ dom M' ∧ serves B H enc dec st x M') ∧
    (∀ k d, b_vis B st !! x = Some (Node rf (VLeaf k d)) → ∃ v, M !! k = Some v ∧ serves B H enc dec st x {[k := v]}).
  Proof using Hn Hcodec HB.
    intros Hl Hc Hx. destruct (live_handle st lg r M Hl Hc) as (t & Hr & Hwf & Hst & Hpre & He). cbn [fst snd] in *. subst r.
    destruct (below_in H _ t x Hst Hx) as [(u & Hu & ->)|(e & Hxe)].
    2:{ apply has_lookup in Hxe as [rf' ->]. split; intros; congruence. }
    assert (stored H (b_vis B st) u) as Hsu by (by eapply subtrie_stored).
    assert (twf u) as Hwu by (by eapply subtrie_twf).
    pose proof (stored_root H _ u Hsu) as Hru. apply has_lookup in Hru as [rf' Hru]. rewrite Hru. split.
    - intros c z o si bk Heq. destruct u as [|l r]; [done|]. cbn [tvar] in Heq. injection Heq as -> <- <- <- <- <-.
      set (M' := filter _ M).
      assert (∀ x, M' !! x = if decide (x ∈ tkeys (TNode l r)) then M !! x else None) as HM'.
      { intros y. destruct (decide (y ∈ tkeys (TNode l r))) as [Hy|Hy].
        - pose proof (twf_agree l r y Hwu Hy) as Hag. destruct (M !! y) as [v|] eqn:HMy.
          + by apply map_filter_lookup_Some.
          + apply map_filter_lookup_None. by left.
        - apply map_filter_lookup_None. right. intros v HMy Hag. cbn in Hag.
          apply Hy, tmap_has. unfold has_key.
          rewrite (sub_cylinder t l r (tmin l) y Hwf Hu (tmin_in (TNode l r)) Hag).
          apply (encs_has enc M (tmap t) y He). by eexists. }
      pose proof (sub_handle lg _ t (TNode l r) M Hwf Hst Hpre He Hu M' HM') as Hh. split_and!.
      + destruct Hh as (u & Hr & Hw' & _ & Hp' & He'). cbn [fst snd] in *.
        apply (troot_inj H (Sof lg) Hc) in Hr; [|by eapply (subtrie_pre H)|done]. subst u.
        rewrite (encs_size M' (TNode l r)), tkeys_length by done. done.
      + apply elem_of_dom. rewrite HM', decide_True by (apply (tmin_in (TNode l r))).
        apply (encs_has enc M (tmap t) _ He), tmap_has. eapply subtrie_keys; [exact Hu|apply (tmin_in (TNode l r))].
      + by apply (handle_serves Hn B H enc dec Hcodec lg).
    - intros k d Heq. destruct u as [k' e'|]; [|done]. cbn [tvar] in Heq. injection Heq as -> <- <-.
      assert (is_Some (M !! k')) as [v Hv].
      { apply (encs_has enc M (tmap t) _ He), tmap_has. eapply subtrie_keys; [exact Hu|by left]. }
      exists v. split; [done|]. apply (handle_serves Hn B H enc dec Hcodec lg).
      apply (sub_handle lg _ t (TLeaf k' e') M Hwf Hst Hpre He Hu). intros y. cbn.
      destruct (decide (y = k')) as [->|Hy].
      + rewrite lookup_singleton, decide_True; [done|by left].
      + rewrite lookup_singleton_ne, decide_False; [done| |done]. by intros ?%elem_of_list_singleton.
  Qed.
End Need.
