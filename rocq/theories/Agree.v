(** * The backends agree *)
From Coq Require Import Strings.Byte NArith.
From stdpp Require Import prelude countable gmap sorting strings.
From Verif Require Import Model Bits Spec Util Trie Store Logic Build Evol Route Reads Insert Update Safe Get Hist Claims Sim.

Local Open Scope nat_scope.

Section Succ.
  Context {n : nat} (Hn : 0 < n) (B : backend n) {HB : BackendOk B} (H : list bytes → arr n).
  Context {V : Type} (enc : V → res bytes) (dec : bytes → res V) (Hcodec : codec_ok enc dec).

  (** When an insertion of a mild batch succeeds: a condition on the
      arguments and the tree only. *)
  Definition accepted (D : nat) (old : option (trie n)) (ks : list (arr n)) (vs : list V) : Prop :=
    length ks = length vs ∧ ks ≠ [] ∧ NoDup ks ∧ (∀ v, v ∈ vs → ∃ e, enc v = Ok e) ∧
    olddep old (sort_keys ks) ≤ D.

  Lemma accepted_dec D old ks vs : accepted D old ks vs ∨ ¬ accepted D old ks vs.
  Proof.
    unfold accepted.
    destruct (decide (length ks = length vs ∧ ks ≠ [] ∧ NoDup ks ∧
      Forall (λ v, match enc v with Ok _ => true | _ => false end = true) vs ∧
      olddep old (sort_keys ks) ≤ D)) as [(?&?&?&Hf&?)|Hx].
    - left. split_and!; try done. intros v Hv. rewrite Forall_forall in Hf. specialize (Hf v Hv).
      destruct (enc v); eauto; done.
    - right. intros (?&?&?&Hf&?). apply Hx. split_and!; try done.
      apply Forall_forall. intros v Hv. destruct (Hf v Hv) as [e ->]. done.
  Qed.

  Theorem insert_iff L st hs D old M ks vs :
    inj_on H (λ x, x ∈ L) → hinv B H enc L st hs → prev_holds hs (troot H <$> old) M → mild M ks →
    oldok H (λ x, x ∈ L) (b_vis B st) old → owf old → encs enc M (omap old) →
    (∀ x, x ∈ hlog B H (insert enc D (troot H <$> old) ks vs) st → x ∈ L) →
    (accepted D old ks vs →
       ∃ t, out B H (insert enc D (troot H <$> old) ks vs) st = ROk (troot H t) ∧ twf t ∧
            encs enc (updated M ks vs) (tmap t)) ∧
    (¬ accepted D old ks vs → ∃ er, out B H (insert enc D (troot H <$> old) ks vs) st = RErr er).
  Proof.
    intros Hinj Hi Hp Hb Hok Hwf He Hlg. pose proof Hi as [HJ Hh]. apply J_rebase in HJ.
    unfold insert in *. unfold accepted.
    destruct (Nat.eqb_spec (length ks) (length vs)) as [Hlen|Hlen]; simpl in *; [|split; [naive_solver|eauto]].
    destruct (Nat.eqb_spec (length ks) 0) as [Hz|Hne]; simpl in *.
    { apply length_zero_iff_nil in Hz as ->. split; [naive_solver|eauto]. }
    destruct (Nat.eqb_spec (length vs) 0) as [|Hne']; [lia|]. simpl in *.
    assert (mild (omap old) (sort_keys ks)) as Hhz.
    { apply mild_sort. by apply (encs_mild enc M (omap old) ks He). }
    assert (sort_keys ks ≠ []) as Hsne.
    { intros Hnil. apply Hne. rewrite <- sort_keys_length, Hnil. done. }
    assert (ks ≠ []) as Hkne by (by intros ->).
    assert (∀ k, k ∈ sort_keys ks → is_Some (value_map_of ks vs !! k)) as Hdom.
    { intros k Hk. apply value_map_some; [done|done|]. by apply elem_of_sort_keys. }
    pose proof (insert_sorted_wp Hn H (λ x, x ∈ L) Hinj B enc (enc_no_panic _ _ Hcodec) D (sort_keys ks)
      (value_map_of ks vs) old st HJ Hok (sort_keys_sorted ks) Hsne Hdom) as Hw.
    apply wp_run in Hw; [|done].
    destruct (out B H _ st) as [r|er| |]; try done.
    - destruct Hw as (es & m' & P' & t & ts & -> & Hes & Hpre & Hev & HG & Hvis & Hpend & Hts & Hsort & Hlv & Hgd & Hdep).
      assert (length (sort_keys ks) = length es) as Hle by (by eapply Forall2_length).
      pose proof (result_nodup (sort_keys ks) es old Hle ts Hts Hsort) as Hnd.
      apply NoDup_app in Hnd as (Hnd & _ & _). rewrite sort_keys_perm in Hnd.
      split.
      + intros _. exists t. assert (twf t) as Ht.
        { apply Hgd. eapply result_good; eauto. apply sort_keys_sorted. }
        split_and!; [done|done|].
        assert (tmap t = list_to_map (zip (sort_keys ks) es) ∪ omap old) as ->.
        { eapply result_map; eauto. apply sort_keys_sorted. }
        unfold updated. apply encs_union; [|done]. by eapply encs_batch.
      + intros Hna. exfalso. apply Hna. split_and!; try done.
        intros v Hv. apply elem_of_list_lookup in Hv as [i Hv].
        destruct (lookup_lt_is_Some_2 ks i) as [k Hk]; [apply lookup_lt_Some in Hv; lia|].
        assert (value_map_of ks vs !! k = Some v) as Hvm.
        { rewrite (value_map_zip Hn) by done. apply elem_of_list_to_map; [by rewrite fst_zip by lia|].
          apply elem_of_list_lookup. exists i. by rewrite lookup_zip_with, Hk, Hv. }
        assert (k ∈ sort_keys ks) as Hks by (apply elem_of_sort_keys; by eapply elem_of_list_lookup_2).
        apply elem_of_list_lookup in Hks as [j Hj].
        destruct (Forall2_lookup_l _ _ _ _ _ Hes Hj) as (e & _ & Hee).
        apply encg_Some in Hee as (v' & Hv' & Hee). exists e. congruence.
    - split; [|eauto]. intros (_ & _ & Hnd & Hen & Hd). exfalso.
      destruct Hw as (_ & [(k & v & _ & Hv & Herr)|[(_ & Hd')|(_ & Hnd')]]).
      + destruct (Hen v) as [e ?]; [|congruence].
        rewrite (value_map_zip Hn) in Hv by done.
        apply elem_of_list_to_map_2 in Hv. by apply elem_of_zip_r in Hv.
      + lia.
      + apply Hnd'. apply mild_nodup; try done; [apply sort_keys_sorted|by rewrite sort_keys_perm].
  Qed.
End Succ.

Section Agree.
  Context {n : nat} (Hn : 0 < n) (B1 B2 : backend n) {HB1 : BackendOk B1} {HB2 : BackendOk B2}.
  Context (H : list bytes → arr n).
  Context {V : Type} (enc : V → res bytes) (dec : bytes → res V) (Hcodec : codec_ok enc dec).

  Theorem insert_agree st1 lg1 hs1 st2 lg2 hs2 D prev M ks vs r :
    hist B1 H enc dec st1 lg1 hs1 → hist B2 H enc dec st2 lg2 hs2 →
    no_collision H (lg1 ++ hlog B1 H (insert enc D prev ks vs) st1) →
    no_collision H (lg2 ++ hlog B2 H (insert enc D prev ks vs) st2) →
    prev_holds hs1 prev M → prev_holds hs2 prev M → mild M ks →
    out B1 H (insert enc D prev ks vs) st1 = ROk r →
    out B2 H (insert enc D prev ks vs) st2 = ROk r.
  Proof.
    intros Hh1 Hh2 Hc1 Hc2 Hp1 Hp2 Hb Hout.
    set (L1 := lg1 ++ _) in *. set (L2 := lg2 ++ _) in *.
    assert (hinv B1 H enc L1 st1 hs1) as Hi1.
    { eapply hist_hinv; eauto. intros; apply elem_of_app; by left. }
    assert (hinv B2 H enc L2 st2 hs2) as Hi2.
    { eapply hist_hinv; eauto. intros; apply elem_of_app; by left. }
    destruct (prev_old H enc L1 _ hs1 prev M (proj2 Hi1) Hp1) as (old1 & Hpr1 & Hok1 & Hwf1 & He1).
    destruct (prev_old H enc L2 _ hs2 prev M (proj2 Hi2) Hp2) as (old2 & Hpr2 & Hok2 & Hwf2 & He2).
    assert (old1 = old2) as <-.
    { destruct old1 as [t1|], old2 as [t2|]; try by destruct prev.
      f_equal. apply twf_map_inj; [done|done|]. by eapply encs_fun. }
    subst prev.
    destruct (insert_iff Hn B1 H enc dec Hcodec L1 st1 hs1 D old1 M ks vs) as [Ha1 Hn1]; try done.
    { intros; apply elem_of_app; by right. }
    destruct (insert_iff Hn B2 H enc dec Hcodec L2 st2 hs2 D old1 M ks vs) as [Ha2 Hn2]; try done.
    { intros; apply elem_of_app; by right. }
    assert (accepted enc D old1 ks vs) as Hacc.
    { destruct (accepted_dec enc D old1 ks vs) as [?|Hx]; [done|].
      destruct (Hn1 Hx). congruence. }
    destruct (Ha1 Hacc) as (t1 & Ho1 & Ht1 & Het1). destruct (Ha2 Hacc) as (t2 & Ho2 & Ht2 & Het2).
    rewrite Ho2. rewrite Ho1 in Hout. injection Hout as <-. do 2 f_equal.
    apply twf_map_inj; [done|done|]. by eapply encs_fun.
  Qed.

End Agree.

Section Agree2.
  Context {n : nat} (Hn : 0 < n) (B1 B2 : backend n) {HB1 : BackendOk B1} {HB2 : BackendOk B2}.
  Context (H : list bytes → arr n).
  Context {V : Type} (enc : V → res bytes) (dec : bytes → res V) (Hcodec : codec_ok enc dec).

  Theorem both_hist st1 st2 lg1 lg2 hs : both B1 B2 H enc dec st1 st2 lg1 lg2 hs →
    no_collision H lg1 → no_collision H lg2 →
    hist B1 H enc dec st1 lg1 hs ∧ hist B2 H enc dec st2 lg2 hs.
  Proof.
    induction 1 as [|st1 st2 lg1 lg2 hs D prev M ks vs r Hbo IH Hp Hb Hout|st1 st2 lg1 lg2 hs c Hbo IH];
      intros Hc1 Hc2.
    - split; constructor.
    - destruct IH as [Hh1 Hh2]; [by eapply no_collision_app_l|by eapply no_collision_app_l|].
      split; [by eapply hist_insert|]. eapply hist_insert; [done|done|done|].
      by eapply (insert_agree Hn B1 B2 H enc dec Hcodec st1 lg1 hs st2 lg2 hs).
    - destruct IH as [Hh1 Hh2]; [by eapply no_collision_app_l|by eapply no_collision_app_l|].
      split; by apply hist_call.
  Qed.
  Theorem backends_agree_reads st1 lg1 hs1 st2 lg2 hs2 r M :
    hist B1 H enc dec st1 lg1 hs1 → hist B2 H enc dec st2 lg2 hs2 →
    no_collision H lg1 → no_collision H lg2 → (r, M) ∈ hs1 → (r, M) ∈ hs2 →
    ∀ D, (∀ ks, out B1 H (get dec D r ks) st1 = out B2 H (get dec D r ks) st2) ∧
         (∀ k, out B1 H (get_one dec D r k) st1 = out B2 H (get_one dec D r k) st2) ∧
         (∀ k, out B1 H (generate_inclusion_proof D r k) st1 = out B2 H (generate_inclusion_proof D r k) st2).
  Proof.
    intros Hh1 Hh2 Hc1 Hc2 Hr1 Hr2 D.
    destruct (hist_handle Hn B1 H enc dec Hcodec _ _ _ _ _ Hh1 Hc1 Hr1) as (t1 & Ht1 & Hw1 & Hs1 & _ & He1).
    destruct (hist_handle Hn B2 H enc dec Hcodec _ _ _ _ _ Hh2 Hc2 Hr2) as (t2 & Ht2 & Hw2 & Hs2 & _ & He2).
    simpl in *. assert (t1 = t2) as <- by (apply twf_map_inj; [done|done|by eapply encs_fun]).
    subst r. pose proof (twf_tpwf t1 Hw1).
    split_and!; intros; [by apply get_same|by apply get_one_same|by apply prove_same].
  Qed.
  (** C31 *)
  Theorem backends_agree st1 st2 lg1 lg2 hs : both B1 B2 H enc dec st1 st2 lg1 lg2 hs →
    no_collision H lg1 → no_collision H lg2 →
    (∀ D prev M ks vs r, prev_holds hs prev M → mild M ks →
       no_collision H (lg1 ++ hlog B1 H (insert enc D prev ks vs) st1) →
       no_collision H (lg2 ++ hlog B2 H (insert enc D prev ks vs) st2) →
       out B1 H (insert enc D prev ks vs) st1 = ROk r ↔ out B2 H (insert enc D prev ks vs) st2 = ROk r) ∧
    (∀ r M D, (r, M) ∈ hs →
       (∀ ks, out B1 H (get dec D r ks) st1 = out B2 H (get dec D r ks) st2) ∧
       (∀ k, out B1 H (get_one dec D r k) st1 = out B2 H (get_one dec D r k) st2) ∧
       (∀ k, out B1 H (generate_inclusion_proof D r k) st1 = out B2 H (generate_inclusion_proof D r k) st2)).
  Proof.
    intros Hbo Hc1 Hc2. destruct (both_hist _ _ _ _ _ Hbo Hc1 Hc2) as [Hh1 Hh2]. split.
    - intros D prev M ks vs r Hp Hb Hd1 Hd2. split; intros Hout.
      + by eapply (insert_agree Hn B1 B2 H enc dec Hcodec st1 lg1 hs st2 lg2 hs).
      + by eapply (insert_agree Hn B2 B1 H enc dec Hcodec st2 lg2 hs st1 lg1 hs).
    - intros r M D Hr. by eapply backends_agree_reads.
  Qed.
End Agree2.
