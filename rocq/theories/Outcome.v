(** * Which calls fail, and with which error *)
From Coq Require Import Strings.Byte NArith.
From stdpp Require Import prelude countable gmap list sorting strings.
From Verif Require Import Model Bits Spec Util Bitwise Trie Store Logic Reads Get Evol Route Build Insert Update Safe Hist Total Claims
  RefCount RcInsert Live Regrow Weak Depth Need Exact Cost.

Local Open Scope nat_scope.

Section Deep.
  Context {n : nat} (Hn : 0 < n).
  Implicit Types (t l r : trie n) (k : arr n) (ks : list (arr n)).
  Lemma wdep_all M ks0 t ks (b : nat) : clean M ks0 t ks → (∀ k, k ∈ ks → wdep t [k] ≤ b) → wdep t ks ≤ b.
  Proof using Hn.
    revert ks b. induction t as [k' e'|l IHl r IHr]; intros ks b Hc Hk; [simpl; lia|]. cbn [wdep].
    destruct (decide (ks = [])) as [->|Hne]; [simpl; lia|].
    pose proof Hc as (_ & Hwf & _).
    destruct (clean_node M ks0 l r ks Hn Hc Hne) as (HD & Hsp & Hcl & Hcr). clear HD.
    destruct (node_desc ks (tsplit l r) (tmin l)) as [|d D]; [lia|].
    rewrite Hsp. cbn [fst snd]. clear Hsp d D.
    assert (∀ k, k ∈ zside l r ks → S (wdep l [k]) ≤ b) as Hz.
    { intros k [Hb [Hag Hin]%elem_of_list_filter]%elem_of_list_filter.
      specialize (Hk k Hin). rewrite (wdep_single Hn), decide_True, Hb in Hk by done. done. }
    assert (∀ k, k ∈ oside l r ks → S (wdep r [k]) ≤ b) as Ho.
    { intros k [Hb [Hag Hin]%elem_of_list_filter]%elem_of_list_filter.
      specialize (Hk k Hin). rewrite (wdep_single Hn), decide_True, Hb in Hk by done. done. }
    apply Nat.max_lub.
    - destruct (zside l r ks) as [|z Z]; [lia|].
      pose proof (Hz z ltac:(by left)). destruct b as [|b]; [lia|]. apply le_n_S. apply IHl; [done|].
      intros k Hin. specialize (Hz k Hin). lia.
    - destruct (oside l r ks) as [|z Z]; [lia|].
      pose proof (Ho z ltac:(by left)). destruct b as [|b]; [lia|]. apply le_n_S. apply IHr; [done|].
      intros k Hin. specialize (Ho k Hin). lia.
  Qed.
End Deep.

Lemma wp_and {n} (B : backend n) H S J {A} (p : prog n A) (Q Q' : A → b_st B → Prop) (E E' : string → b_st B → Prop) s :
  wp B H S J p Q E s → wp B H S J p Q' E' s → wp B H S J p (λ a s, Q a s ∧ Q' a s) (λ e s, E e s ∧ E' e s) s.
Proof. revert s. induction p; intros s; simpl; naive_solver. Qed.

Section Outcome.
  Context {n : nat} (Hn : 0 < n) (B : backend n) {HB : BackendOk B} (H : list bytes → arr n).
  Context {V : Type} (enc : V → res bytes) (dec : bytes → res V) (Hcodec : codec_ok enc dec).
  Implicit Types (st : b_st B) (lg L : list (list bytes)) (k r : arr n) (ks : list (arr n)) (vs : list V).
  Implicit Types (M : gmap (arr n) V) (hs : list (arr n * gmap (arr n) V)) (t : trie n).
  Notation Sof L := (λ x, x ∈ L).
  Let Henc : ∀ v, enc v ≠ Pan := enc_no_panic _ _ Hcodec.
  Notation depth_error := "Depth of merkle tree exceeded"%string.
  Notation dup_error := "Attempted to insert item with duplicate keys"%string.

  Lemma get_deep t st M D ks : stored H (b_vis B st) t → twf t → encs enc M (tmap t) →
    (wdep t (sort_keys ks) ≤ D ∧ ∃ lm, out B H (get dec D (troot H t) ks) st = ROk lm) ∨
    (D < wdep t (sort_keys ks) ∧ out B H (get dec D (troot H t) ks) st = RErr depth_error).
  Proof using Hn Hcodec HB.
    intros Hst Hwf He. pose proof (get_wp Hn H B dec (dec_no_panic _ _ Hcodec) D t ks st Hst (twf_tpwf t Hwf)) as Hw.
    apply wp_run in Hw; [|done]. destruct (out B H _ st) as [lm|er| |]; try done.
    - left. split; [apply Hw|eauto].
    - destruct Hw as [_ [[-> Hd]|(k & e & Hin & Hdec)]]; [by right|]. exfalso.
      apply (tmap_lookup t k e Hwf) in Hin. specialize (He k). rewrite Hin in He.
      inversion He as [v e' Hv|]; subst. apply Hcodec in Hv. congruence.
  Qed.
  (** C71 *)
  Theorem get_outcome st lg r M D ks : live B H enc dec st lg r M → no_collision H lg →
    ((∃ lm, out B H (get dec D r ks) st = ROk lm) ∨ out B H (get dec D r ks) st = RErr depth_error) ∧
    (benign M ks → (∃ lm, out B H (get dec D r ks) st = ROk lm) ↔
       ∀ k, k ∈ ks → ∃ lm, out B H (get dec D r [k]) st = ROk lm).
  Proof using Hn Hcodec HB.
    intros Hl Hc. destruct (live_handle Hn B H enc dec Hcodec st lg r M Hl Hc) as (t & Hr & Hwf & Hst & _ & He).
    cbn [fst snd] in *. subst r. pose proof (λ ks, get_deep t st M D ks Hst Hwf He) as Hg. split.
    - destruct (Hg ks) as [[_ ?]|[_ ?]]; auto.
    - intros Hb. assert (¬ hazard (has_key (tmap t)) (sort_keys ks)) as Hhz.
      { apply benign_sort. by apply (encs_benign enc M (tmap t) ks He). }
      pose proof (clean_old t _ Hwf (sort_keys_sorted ks) Hhz) as Hcl.
      assert (∀ ks', (∃ lm, out B H (get dec D (troot H t) ks') st = ROk lm) ↔ wdep t (sort_keys ks') ≤ D) as Hiff.
      { intros ks'. destruct (Hg ks') as [[? ?]|[? Hq]]; [done|]. split; [|lia]. intros [lm Hlm]. congruence. }
      setoid_rewrite Hiff. split.
      + intros Hd k Hk. change (sort_keys [k]) with [k].
        etrans; [eapply (wdep_le Hn); [exact Hcl|]|exact Hd]. by apply elem_of_sort_keys.
      + intros Hd. eapply (wdep_all Hn); [exact Hcl|]. intros k Hk. apply (Hd k). by apply elem_of_sort_keys.
  Qed.

  Lemma vm_value ks vs k v : value_map_of ks vs !! k = Some v → v ∈ vs.
  Proof using.
    unfold value_map_of. rewrite foldl_insert_lookup.
    destruct (last (filter _ _)) as [[k' v']|] eqn:Hl; [|by rewrite lookup_empty]. intros [= <-].
    apply last_Some_elem_of, elem_of_list_filter in Hl as [_ Hin]. by apply elem_of_zip_r in Hin.
  Qed.
  Lemma insert_leaves_enc (S' : list bytes → Prop) (P' : b_st B → Prop) (vm : gmap (arr n) V) ks st : (∀ k, k ∈ ks → is_Some (vm !! k)) → (∀ st, P' st) →
    wp B H S' P' (insert_leaves enc vm ks)
      (λ _ _, ∀ k v, k ∈ ks → vm !! k = Some v → ∃ e, enc v = Ok e)
      (λ er _, ∃ k v, k ∈ ks ∧ vm !! k = Some v ∧ enc v = Err er) st.
  Proof using Henc.
    intros Hd HP. revert st. induction ks as [|k ks IH]; intros st; [by intros ?? ?%elem_of_nil|].
    cbn [insert_leaves]. apply wp_bind. unfold insert_leaves_one.
    destruct (Hd k ltac:(by left)) as [v Hv]. rewrite Hv. apply wp_bind.
    pose proof (Henc v). destruct (enc v) as [e|er|] eqn:Hev; [|exists k, v; split_and!; [by left|done|done]|done].
    cbn [lift mbind prog_bind pbind hash get_node db_insert wp mret prog_ret]. intros _ _. split_and!; try apply HP.
    apply wp_bind. eapply wp_mono; [| |apply IH].
    - intros ls st' Hls. cbn. intros k' v' [->|Hk]%elem_of_cons Hv'; [|by eapply Hls].
      rewrite Hv in Hv'. injection Hv' as <-. eauto.
    - intros er st' (k' & v' & Hk & ?). exists k', v'. split; [by right|done].
    - intros k' Hk'. apply Hd. by right.
  Qed.
  (** C71 *)
  Theorem insert_outcome st lg hs D prev M ks vs :
    hist B H enc dec st lg hs ∨ whist B H enc dec st lg hs →
    no_collision H (lg ++ hlog B H (insert enc D prev ks vs) st) → prev_holds hs prev M →
    length ks = length vs → ks ≠ [] →
    let o := out B H (insert enc D prev ks vs) st in
    let deep := ∃ r, prev = Some r ∧ out B H (get dec D r ks) st = RErr depth_error in
    (NoDup ks → (∃ v, v ∈ vs ∧ ∀ e, enc v ≠ Ok e) → ∃ v er, v ∈ vs ∧ enc v = Err er ∧ o = RErr er) ∧
    ((∀ v, v ∈ vs → ∃ e, enc v = Ok e) →
       (deep → o = RErr depth_error) ∧
       (¬ deep → ¬ NoDup ks → o = RErr dup_error) ∧
       (¬ deep → NoDup ks → (∃ r', o = ROk r') ∨ (¬ mild M ks ∧ o = RErr dup_error))).
  Proof using Hn Hcodec HB.
    intros Hh Hc Hp Hlen Hne o deep. set (L := lg ++ _) in *.
    destruct (known_J Hn B H enc dec Hcodec L st lg hs Hh Hc) as [Hf HJ]; [intros; apply elem_of_app; by left|].
    assert (∀ x, x ∈ hlog B H (insert enc D prev ks vs) st → x ∈ L) as HL by (intros; apply elem_of_app; by right).
    clearbody L. pose proof (eq_refl : o = out B H (insert enc D prev ks vs) st) as Eo. clearbody o. revert Eo HL. unfold insert.
    destruct (Nat.eqb_spec (length ks) (length vs)) as [_|?]; [|done]. simpl negb. cbn iota.
    destruct (Nat.eqb_spec (length ks) 0) as [Hz|Hne1]; [by apply length_zero_iff_nil in Hz|].
    destruct (Nat.eqb_spec (length vs) 0) as [|Hne2]; [lia|]. simpl orb. cbn iota. intros Eo HL.
    assert (∀ k, k ∈ sort_keys ks → is_Some (value_map_of ks vs !! k)) as Hvm.
    { intros k Hk. apply value_map_some; [done|done|]. by apply elem_of_sort_keys. }
    split.
    - intros Hnd (v & Hv & Hbad). rewrite Eo.
      assert (wp B H (λ _, True) (λ _, True) (insert_sorted enc D prev (sort_keys ks) (value_map_of ks vs)) (λ _ _, False)
        (λ er _, ∃ v, v ∈ vs ∧ enc v = Err er) st) as Hw.
      { unfold insert_sorted. apply wp_bind. eapply wp_mono; [| |by apply insert_leaves_enc].
        - intros ls st' Hall. exfalso.
          apply elem_of_list_lookup in Hv as [i Hi].
          assert (is_Some (ks !! i)) as [k Hk] by (apply lookup_lt_is_Some; rewrite Hlen; by eapply lookup_lt_Some).
          assert (value_map_of ks vs !! k = Some v) as Hkv.
          { rewrite value_map_zip by done. apply elem_of_list_to_map_1; [by rewrite fst_zip by lia|].
            apply elem_of_list_lookup. exists i. by rewrite lookup_zip_with, Hk, Hi. }
          destruct (Hall k v) as [e He]; [|done|by apply (Hbad e)].
          apply elem_of_sort_keys. by eapply elem_of_list_lookup_2.
        - intros er st' (k & v' & _ & Hv' & Her). apply vm_value in Hv'. eauto. }
      apply wp_run in Hw; [|done]. destruct (out B H _ st) as [r|er| |]; try done.
      destruct Hw as (v' & Hv' & Her). eauto.
    - intros Hall.
      destruct (prev_old H enc L _ hs prev M Hf Hp) as (old & -> & Hok & Hwf & He).
      assert (sort_keys ks ≠ []) as Hsne.
      { intros Hnil. apply Hne1. rewrite <- sort_keys_length, Hnil. done. }
      assert ((olddep old (sort_keys ks) ≤ D ∧ ¬ deep) ∨ (D < olddep old (sort_keys ks) ∧ deep)) as Hdeep.
      { destruct old as [t|].
        - destruct Hok as (Hst & _ & _). destruct (get_deep t st M D ks Hst Hwf He) as [[? [lm Hlm]]|[? Hq]]; [left|right].
          + split; [done|]. intros (r & [= <-] & Hr). congruence.
          + split; [done|]. by exists (troot H t).
        - left. split; [simpl; lia|]. by intros (r & ? & _). }
      pose proof (insert_sorted_wp_gen Hn H (Sof L) Hc no_floor (shallow H (Sof L)) (shallow_keeps H L Hc) B enc Henc D
        (sort_keys ks) (value_map_of ks vs) old st HJ Hok (sort_keys_sorted ks) Hsne Hvm
        ltac:(intros es ts _ _ _ x bs1 l0 r0 bs2 _ _ _ _ _ _; apply Nat.le_0_l)) as Hs.
      apply wp_run in Hs; [|done]. rewrite <- Eo in Hs. destruct o as [r|er| |]; try done; symmetry in Eo.
      + destruct Hs as (es & m' & P'' & t' & ts & -> & Hes & _ & _ & _ & _ & _ & Hts & Hsort & _ & _ & Hd).
        assert (NoDup ks) as Hnd.
        { assert (length (sort_keys ks) = length es) as Hle by (by eapply Forall2_length).
          pose proof (result_nodup (sort_keys ks) es old Hle ts Hts Hsort) as Hnd.
          apply NoDup_app in Hnd as (Hnd & _ & _). by rewrite sort_keys_perm in Hnd. }
        destruct Hdeep as [[_ Hnd']|[? _]]; [|lia]. split_and!; [done|done|eauto].
      + destruct Hs as (_ & [(k & v & _ & Hv & Her)|[(-> & Hd)|(-> & Hnd)]]).
        * apply vm_value in Hv. destruct (Hall v Hv) as [e ?]. congruence.
        * destruct Hdeep as [[? _]|[_ Hdp]]; [lia|]. split_and!; done.
        * assert (¬ deep) as Hshal.
          { intros Hdp. destruct Hdeep as [[_ ?]|[Hlt _]]; [done|].
            pose proof (insert_refs_wp Hn H (Sof L) Hc (shallow H (Sof L)) (shallow_keeps H L Hc) B enc Henc D
              (sort_keys ks) (value_map_of ks vs) old st HJ Hok (sort_keys_sorted ks) Hsne Hvm) as Hw.
            revert Eo HL. unfold out, hlog. rewrite insert_sorted_refs, run_bind.
            pose proof (λ HL, wp_run B H _ _ _ _ _ st Hw HL) as Hr. unfold out, hlog in Hr.
            destruct (run B H (insert_refs enc D _ _ _) st) as [[[rs|er| |] s'] lg']; cbn [fst snd] in Hr.
            - destruct (run B H (create_tree rs) s') as [[o' s''] lg'']. cbn. intros _ HL.
              destruct Hr; [intros; apply HL, elem_of_app; by left|lia].
            - cbn. intros [= ->] HL. destruct (Hr HL) as [(k & v & _ & Hv & Her)|[? _]]; [|done].
              apply vm_value in Hv. destruct (Hall v Hv) as [e ?]. congruence.
            - done.
            - done. }
          destruct (decide (NoDup ks)) as [Hnk|Hnk].
          -- assert (¬ mild M ks) as Hnb.
             { intros Hb. apply Hnd. apply (mild_nodup Hn (sort_keys ks) old); try done.
               - apply sort_keys_sorted.
               - by rewrite sort_keys_perm.
               - apply mild_sort. by apply (encs_mild enc M (omap old) ks He). }
             split_and!; [by intros ?%Hshal|done|auto].
          -- split_and!; [by intros ?%Hshal|done|done].
  Qed.

  (** C71: a root that is not stored. *)
  Theorem missing_outcome st r : b_vis B st !! r = None →
    (∀ D k, out B H (generate_inclusion_proof D r k) st = RErr "Failed to find node") ∧
    (∀ D ks vs, length ks = length vs → ks ≠ [] → (∀ v, v ∈ vs → ∃ e, enc v = Ok e) →
       (∀ x, x ∈ hlog B H (insert enc D (Some r) ks vs) st → H x ≠ r) →
       out B H (insert enc D (Some r) ks vs) st = RErr "Could not find root").
  Proof using Hn Hcodec HB.
    intros Hr. split.
    - intros D k. unfold generate_inclusion_proof. rewrite Nat.add_comm. unfold out. cbn. by rewrite Hr.
    - intros D ks vs Hlen Hne Hall. unfold insert.
      destruct (Nat.eqb_spec (length ks) (length vs)) as [_|?]; [|done]. simpl negb. cbn iota.
      destruct (Nat.eqb_spec (length ks) 0) as [Hz|Hne1]; [by apply length_zero_iff_nil in Hz|].
      destruct (Nat.eqb_spec (length vs) 0) as [|Hne2]; [lia|]. simpl orb. cbn iota. intros Hlog.
      assert (∀ k, k ∈ sort_keys ks → is_Some (value_map_of ks vs !! k)) as Hvm.
      { intros k Hk. apply value_map_some; [done|done|]. by apply elem_of_sort_keys. }
      assert (wp B H (λ x, H x ≠ r) (λ _, True)
        (insert_sorted enc D (Some r) (sort_keys ks) (value_map_of ks vs)) (λ _ _, False)
        (λ er _, er = "Could not find root"%string) st) as Hw.
      { unfold insert_sorted. apply wp_bind.
        eapply wp_mono; [| |apply (wp_and B H (λ x, H x ≠ r) (λ _, True));
          [apply (insert_leaves_absent B H enc dec Hcodec (value_map_of ks vs) (sort_keys ks) r st Hvm Hr)
          |by apply (insert_leaves_enc (λ x, H x ≠ r) (λ _, True))]].
        - intros ls st' [Hst' _]. apply wp_bind. unfold generate_treerefs. apply wp_bind.
          cbn [get_node wp]. by rewrite Hst'.
        - intros er st' (_ & k & v & _ & Hv & Her). apply vm_value in Hv. destruct (Hall v Hv). congruence. }
      apply wp_run in Hw; [|done]. destruct (out B H _ st) as [x|er| |]; try done. by subst er.
  Qed.
End Outcome.
