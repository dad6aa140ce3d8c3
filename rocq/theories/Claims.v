(** * Properties of histories without removals *)
From Coq Require Import Strings.Byte NArith.
From stdpp Require Import prelude countable gmap sorting strings.
From Verif Require Import Model Bits Spec Util Trie Store Logic Build Evol Route Reads Insert Update Safe Get Hist.

Local Open Scope nat_scope.

Lemma no_collision_inj {n} (H : list bytes → arr n) L : no_collision H L ↔ inj_on H (λ x, x ∈ L).
Proof. done. Qed.
Lemma no_collision_sub {n} (H : list bytes → arr n) L L' :
  (∀ x, x ∈ L → x ∈ L') → no_collision H L' → no_collision H L.
Proof. intros Hs Hn x y Hx Hy. apply Hn; auto. Qed.
Lemma no_collision_app_l {n} (H : list bytes → arr n) L L' : no_collision H (L ++ L') → no_collision H L.
Proof. apply no_collision_sub. intros x ?. apply elem_of_app. by left. Qed.

Section Claims.
  Context {n : nat} (Hn : 0 < n) (B : backend n) {HB : BackendOk B} (H : list bytes → arr n).
  Context {V : Type} (enc : V → res bytes) (dec : bytes → res V) (Hcodec : codec_ok enc dec).
  Implicit Types (st : b_st B) (lg L : list (list bytes)) (k r : arr n) (ks : list (arr n)) (vs : list V).
  Implicit Types (M : gmap (arr n) V) (hs : list (arr n * gmap (arr n) V)) (t : trie n) (e : bytes).
  Notation hist := (hist B H enc dec).
  Notation handle_ok := (handle_ok H enc).
  Notation hinv := (hinv B H enc).
  Notation holds := (holds B H dec).

  Lemma hist_hinv st lg hs L : hist st lg hs → no_collision H L → (∀ x, x ∈ lg → x ∈ L) → hinv L st hs.
  Proof. intros Hh Hc Hs. by eapply hist_inv. Qed.
  Lemma hist_handle st lg hs r M : hist st lg hs → no_collision H lg → (r, M) ∈ hs →
    handle_ok lg (b_vis B st) (r, M).
  Proof.
    intros Hh Hc Hin. destruct (hist_hinv st lg hs lg Hh Hc ltac:(done)) as [_ Hf].
    rewrite Forall_forall in Hf. by apply Hf.
  Qed.

  (** ** Reading a handle *)
  Lemma encs_dec M (Me : gmap (arr n) bytes) k : encs enc M Me →
    match Me !! k with Some e => ∃ v, dec e = Ok v ∧ M !! k = Some v | None => M !! k = None end.
  Proof.
    intros He. specialize (He k). destruct He as [v e He|]; [|done].
    exists v. split; [|done]. by eapply dec_enc.
  Qed.
  Lemma encs_inj M1 M2 (Me : gmap (arr n) bytes) : encs enc M1 Me → encs enc M2 Me → M1 = M2.
  Proof.
    intros H1 H2. apply map_eq. intros k. pose proof (encs_dec M1 Me k H1). pose proof (encs_dec M2 Me k H2).
    destruct (Me !! k); [|congruence]. naive_solver congruence.
  Qed.
  Lemma encs_fun M (Me1 Me2 : gmap (arr n) bytes) : encs enc M Me1 → encs enc M Me2 → Me1 = Me2.
  Proof.
    intros H1 H2. apply map_eq. intros k. specialize (H1 k). specialize (H2 k).
    destruct H1 as [v e He|]; inversion H2; subst; congruence.
  Qed.

  Lemma handle_get_one L st r M D k : handle_ok L (b_vis B st) (r, M) →
    ∃ t, twf t ∧ encs enc M (tmap t) ∧
      out B H (get_one dec D r k) st =
        (if D <? tneed t k then RErr "Depth limit exceeded" else ROk (M !! k)).
  Proof.
    intros (t & Hr & Hwf & Hst & _ & He). exists t. split_and!; try done. simpl in *. subst r.
    unfold out. rewrite (get_one_run Hn) by (auto using twf_tpwf). cbn [fst].
    destruct (D <? tneed t k); [done|].
    rewrite tlookup_tmap by done. pose proof (encs_dec M _ k He) as Hd.
    destruct (tmap t !! k) as [e|]; [|by rewrite Hd].
    destruct Hd as (v & -> & ->). done.
  Qed.
  Lemma handle_holds L st r M : handle_ok L (b_vis B st) (r, M) → holds st r M.
  Proof.
    intros Hh D k HD. destruct (handle_get_one L st r M D k Hh) as (t & Hwf & _ & ->).
    destruct (Nat.ltb_spec D (tneed t k)) as [Hlt|]; [|done].
    pose proof (tneed_depth Hn t k). pose proof (twf_depth t Hwf). lia.
  Qed.

  (** C07: the roots of a history read as they should. *)
  Theorem hist_holds st lg hs r M : hist st lg hs → no_collision H lg → (r, M) ∈ hs → holds st r M.
  Proof. intros Hh Hc Hin. eapply handle_holds, hist_handle; eauto. Qed.
  (** C04 *)
  Theorem get_one_exact st lg hs r M D k : hist st lg hs → no_collision H lg → (r, M) ∈ hs →
    (8 * n + 1 ≤ D → out B H (get_one dec D r k) st = ROk (M !! k)) ∧
    (out B H (get_one dec D r k) st = ROk (M !! k) ∨
     out B H (get_one dec D r k) st = RErr "Depth limit exceeded").
  Proof.
    intros Hh Hc Hin. split; [by eapply hist_holds|].
    destruct (handle_get_one lg st r M D k) as (t & _ & _ & ->); [by eapply hist_handle|].
    destruct (D <? tneed t k); auto.
  Qed.

  (** ** Insertion *)
  Theorem insert_total st lg hs D prev M ks vs :
    hist st lg hs → no_collision H (lg ++ hlog B H (insert enc D prev ks vs) st) →
    prev_holds hs prev M → mild M ks →
    length ks = length vs → ks ≠ [] → NoDup ks → (∀ v, v ∈ vs → ∃ e, enc v = Ok e) →
    (prev = None ∨ 8 * n ≤ D) →
    ∃ r, out B H (insert enc D prev ks vs) st = ROk r ∧
      hist (fin B H (insert enc D prev ks vs) st) (lg ++ hlog B H (insert enc D prev ks vs) st)
           ((r, updated M ks vs) :: hs) ∧
      holds (fin B H (insert enc D prev ks vs) st) r (updated M ks vs).
  Proof.
    intros Hh Hc Hp Hb Hlen Hne Hnd Henc HD. set (L := lg ++ _) in *.
    assert (hinv L st hs) as Hi by (eapply hist_hinv; eauto; intros; apply elem_of_app; by left).
    pose proof (insert_hist Hn B H enc dec Hcodec L st hs D prev M ks vs Hc Hi Hp Hb) as Hw.
    apply wp_run in Hw; [|intros; apply elem_of_app; by right].
    destruct (out B H (insert enc D prev ks vs) st) as [r|er| |] eqn:Hout; try done.
    - exists r. split; [done|].
      assert (hist (fin B H (insert enc D prev ks vs) st) L ((r, updated M ks vs) :: hs)) as Hh'
        by (by eapply hist_insert).
      split; [done|]. eapply hist_holds; [done|done|by left].
    - destruct Hw as (_ & [Hx|[Hx|[Hx|[(v & Hv & He)|(_ & Hs & Hx)]]]]); try done.
      + destruct (Henc v Hv). congruence.
      + destruct HD as [->|]; [by destruct Hs|lia].
  Qed.
  Lemma benign_empty ks : benign (∅ : gmap (arr n) V) ks.
  Proof. intros (a & b & x & y & [z Ha] & _). by rewrite lookup_empty in Ha. Qed.
  Lemma benign_single M k : benign M [k].
  Proof. apply hazard_single. Qed.
  Lemma updated_empty ks vs : updated ∅ ks vs = list_to_map (zip ks vs).
  Proof. unfold updated. by rewrite (right_id_L ∅ (∪)). Qed.
  Lemma updated_single M k v : updated M [k] [v] = <[k := v]> M.
  Proof.
    unfold updated. cbn [zip_with list_to_map foldr]. simpl.
    by rewrite insert_empty, <- insert_union_singleton_l.
  Qed.

  (** C01 *)
  Theorem insert_empty_holds st lg hs D ks vs :
    hist st lg hs → no_collision H (lg ++ hlog B H (insert enc D None ks vs) st) →
    length ks = length vs → ks ≠ [] → NoDup ks → (∀ v, v ∈ vs → ∃ e, enc v = Ok e) →
    ∃ r, out B H (insert enc D None ks vs) st = ROk r ∧
      (∀ i k v, ks !! i = Some k → vs !! i = Some v → ∀ D', 8 * n + 1 ≤ D' →
         out B H (get_one dec D' r k) (fin B H (insert enc D None ks vs) st) = ROk (Some v)) ∧
      (∀ k, k ∉ ks → ∀ D', 8 * n + 1 ≤ D' →
         out B H (get_one dec D' r k) (fin B H (insert enc D None ks vs) st) = ROk None).
  Proof.
    intros Hh Hc Hlen Hne Hnd Henc.
    destruct (insert_total st lg hs D None ∅ ks vs) as (r & Hout & _ & Hho); try done; try by left.
    { left. apply benign_empty. }
    rewrite updated_empty in Hho.
    exists r. split; [done|]. split.
    - intros i k v Hk Hv D' HD'. rewrite (Hho D' k HD'). f_equal.
      apply elem_of_list_to_map; [by rewrite fst_zip by lia|].
      apply elem_of_list_lookup. exists i. by rewrite lookup_zip_with, Hk, Hv.
    - intros k Hk D' HD'. rewrite (Hho D' k HD'). f_equal.
      apply not_elem_of_list_to_map. by rewrite fst_zip by lia.
  Qed.
  (** C02 *)
  Theorem insert_one_update st lg hs D r M k v e :
    hist st lg hs → no_collision H (lg ++ hlog B H (insert_one enc D (Some r) k v) st) →
    (r, M) ∈ hs → enc v = Ok e → 8 * n ≤ D →
    ∃ r', out B H (insert_one enc D (Some r) k v) st = ROk r' ∧
      holds (fin B H (insert_one enc D (Some r) k v) st) r' (<[k := v]> M).
  Proof.
    rewrite insert_one_insert. intros Hh Hc Hr He HD. rewrite <- updated_single.
    destruct (insert_total st lg hs D (Some r) M [k] [v]) as (r' & Hout & _ & Hho); eauto.
    - left. apply benign_single.
    - apply NoDup_singleton.
    - intros v' ->%elem_of_list_singleton. eauto.
  Qed.

  (** C03: union, for mild batches *)
  Theorem insert_union st lg hs D r M ks vs :
    hist st lg hs → no_collision H (lg ++ hlog B H (insert enc D (Some r) ks vs) st) →
    (r, M) ∈ hs → mild M ks →
    length ks = length vs → ks ≠ [] → NoDup ks → (∀ v, v ∈ vs → ∃ e, enc v = Ok e) → 8 * n ≤ D →
    ∃ r', out B H (insert enc D (Some r) ks vs) st = ROk r' ∧
      holds (fin B H (insert enc D (Some r) ks vs) st) r' (list_to_map (zip ks vs) ∪ M).
  Proof.
    intros Hh Hc Hr Hb ?????.
    destruct (insert_total st lg hs D (Some r) M ks vs) as (r' & Hout & _ & Hho); eauto.
  Qed.

  (** ** Multi-key reads *)
  Lemma tleaves_decodes t M k e : twf t → encs enc M (tmap t) → (k, e) ∈ tleaves t →
    ∃ v, dec e = Ok v ∧ M !! k = Some v.
  Proof.
    intros Hwf He Hin. apply tmap_lookup in Hin; [|done].
    pose proof (encs_dec M _ k He) as Hd. by rewrite Hin in Hd.
  Qed.
  Lemma handle_get L st r M D ks : handle_ok L (b_vis B st) (r, M) →
    match out B H (get dec D r ks) st with
    | ROk lm => (∀ k, is_Some (lm !! k) ↔ k ∈ ks) ∧
                (∀ k v, lm !! k = Some (Some v) → M !! k = Some v) ∧
                (mild_get M ks → ∀ k, k ∈ ks → lm !! k = Some (M !! k))
    | RErr er => er = "Depth of merkle tree exceeded" ∧ D < 8 * n
    | _ => False
    end.
  Proof.
    intros (t & Hr & Hwf & Hst & _ & He). simpl in *. subst r.
    pose proof (get_wp Hn H B dec (dec_no_panic _ _ Hcodec) D t ks st Hst (twf_tpwf t Hwf)) as Hw.
    apply wp_run in Hw; [|by intros].
    destruct (out B H (get dec D (troot H t) ks) st) as [lm|er| |]; try done.
    - destruct Hw as (_ & [Hd Hs] & Hex & _). split_and!.
      + intros k. rewrite <- not_eq_None_Some, Hd. split; [apply dec_stable|auto].
      + intros k v Hk. destruct (Hs k v Hk) as (e & Hin & Hde).
        destruct (tleaves_decodes t M k e) as (v' & Hv' & HM); try done. congruence.
      + intros Hb k Hk. rewrite Hex; try done.
        * f_equal. unfold dec_opt. pose proof (encs_dec M _ k He) as Hd'.
          destruct (tmap t !! k) as [e|]; [|done]. destruct Hd' as (v & -> & ->). done.
        * apply mild_get_sort. by apply (encs_mild_get enc M (tmap t) ks He).
    - destruct Hw as (_ & [(-> & Hlt)|(k & e & Hin & Hde)]).
      + split; [done|]. pose proof (wdep_depth t (sort_keys ks)). pose proof (twf_depth t Hwf). lia.
      + destruct (tleaves_decodes t M k e) as (v' & Hv' & HM); try done. congruence.
  Qed.

  (** C05, mild requests *)
  Theorem get_exact st lg hs r M D ks :
    hist st lg hs → no_collision H lg → (r, M) ∈ hs → mild_get M ks → 8 * n ≤ D →
    ∃ lm, out B H (get dec D r ks) st = ROk lm ∧ (∀ k, k ∈ ks → lm !! k = Some (M !! k)) ∧
      (∀ k, k ∉ ks → lm !! k = None).
  Proof.
    intros Hh Hc Hr Hb HD. pose proof (handle_get lg st r M D ks) as Hg.
    specialize (Hg ltac:(by eapply hist_handle)).
    destruct (out B H (get dec D r ks) st) as [lm|er| |]; try done; [|lia].
    destruct Hg as (Hd & _ & Hex). exists lm. split_and!; [done|auto|].
    intros k Hk. apply eq_None_not_Some. by rewrite Hd.
  Qed.
  (** C06 *)
  Theorem get_sound_all st lg hs r M D ks lm :
    hist st lg hs → no_collision H lg → (r, M) ∈ hs → out B H (get dec D r ks) st = ROk lm →
    (∀ k, is_Some (lm !! k) ↔ k ∈ ks) ∧ (∀ k v, lm !! k = Some (Some v) → M !! k = Some v).
  Proof.
    intros Hh Hc Hr Hout. pose proof (handle_get lg st r M D ks) as Hg.
    specialize (Hg ltac:(by eapply hist_handle)). rewrite Hout in Hg. naive_solver.
  Qed.
  (** C24 *)
  Theorem depth_enough st lg hs r M :
    hist st lg hs → (r, M) ∈ hs →
    (∀ D ks, no_collision H lg → 8 * n ≤ D → ∃ lm, out B H (get dec D r ks) st = ROk lm) ∧
    (∀ D k, no_collision H lg → 8 * n + 1 ≤ D → ∃ o, out B H (get_one dec D r k) st = ROk o) ∧
    (∀ D k, no_collision H lg → 8 * n + 1 ≤ D →
       out B H (generate_inclusion_proof D r k) st ≠ RErr "Depth limit exceeded") ∧
    (∀ D ks vs, no_collision H (lg ++ hlog B H (insert enc D (Some r) ks vs) st) → 8 * n ≤ D →
       (∀ v, v ∈ vs → enc v ≠ Err "Depth of merkle tree exceeded") →
       out B H (insert enc D (Some r) ks vs) st ≠ RErr "Depth of merkle tree exceeded").
  Proof.
    intros Hh Hr. split_and!.
    - intros D ks Hc HD. pose proof (handle_get lg st r M D ks ltac:(by eapply hist_handle)) as Hg.
      destruct (out B H (get dec D r ks) st); eauto; try done. lia.
    - intros D k Hc HD. exists (M !! k). by eapply hist_holds.
    - intros D k Hc HD.
      destruct (hist_handle st lg hs r M Hh Hc Hr) as (t & Hroot & Hwf & Hst & _ & _). simpl in *. subst r.
      rewrite (gen_proof_run Hn) by (auto using twf_tpwf).
      pose proof (tneed_depth Hn t k). pose proof (twf_depth t Hwf).
      destruct (Nat.ltb_spec D (tneed t k)); [lia|]. by destruct (tlookup t k).
    - intros D ks vs Hc HD Henc. set (L := lg ++ _) in *.
      assert (hinv L st hs) as [HJ Hf] by (eapply hist_hinv; eauto; intros; apply elem_of_app; by left).
      rewrite Forall_forall in Hf. destruct (Hf _ Hr) as (t & Hroot & Hwf & Hst & Hpre & _). simpl in *. subst r.
      apply J_rebase in HJ. intros Hout. unfold insert in Hout.
      destruct (Nat.eqb_spec (length ks) (length vs)) as [Hlen|Hlen]; [|done]. simpl in Hout.
      destruct (Nat.eqb_spec (length ks) 0) as [Hz|Hne]; [done|].
      destruct (Nat.eqb_spec (length vs) 0) as [|Hne']; [lia|]. simpl in Hout.
      assert (sort_keys ks ≠ []) as Hsne.
      { intros Hnil. apply Hne. rewrite <- sort_keys_length, Hnil. done. }
      pose proof (insert_sorted_wp Hn H (λ x, x ∈ L) Hc B enc (enc_no_panic _ _ Hcodec) D (sort_keys ks)
        (value_map_of ks vs) (Some t) st HJ) as Hw.
      specialize (Hw ltac:(by split_and!; auto using twf_tpwf) (sort_keys_sorted ks) Hsne).
      assert (∀ k, k ∈ sort_keys ks → is_Some (value_map_of ks vs !! k)) as Hdom.
      { intros k Hk. apply value_map_some; [done|done|]. by apply elem_of_sort_keys. }
      specialize (Hw Hdom). apply wp_run in Hw.
      2:{ intros x Hx. unfold L. apply elem_of_app. right. unfold insert.
          rewrite Hlen, Nat.eqb_refl. simpl. rewrite (proj2 (Nat.eqb_neq _ _) Hne'). simpl. done. }
      cbn [fmap option_fmap option_map] in Hw. rewrite Hout in Hw.
      destruct Hw as (_ & [(k & v & _ & Hv & Herr)|[(_ & Hd)|(Heq & _)]]).
      + apply (Henc v); [|done].
        unfold value_map_of in Hv. rewrite foldl_insert_lookup in Hv.
        destruct (last (filter _ _)) as [p|] eqn:Hl; [|by rewrite lookup_empty in Hv].
        injection Hv as <-. apply last_Some_elem_of in Hl.
        apply elem_of_list_filter in Hl as [_ Hin]. destruct p as [k' v'].
        by apply elem_of_zip_r in Hin.
      + simpl in Hd. pose proof (wdep_depth t (sort_keys ks)). pose proof (twf_depth t Hwf). lia.
      + done.
  Qed.

  (** ** Roots and contents *)
  (** C10 *)
  Theorem root_commits st lg hs r M1 M2 : hist st lg hs → no_collision H lg →
    (r, M1) ∈ hs → (r, M2) ∈ hs → M1 = M2.
  Proof.
    intros Hh Hc H1 H2.
    destruct (hist_handle _ _ _ _ _ Hh Hc H1) as (t1 & Hr1 & _ & _ & Hp1 & He1).
    destruct (hist_handle _ _ _ _ _ Hh Hc H2) as (t2 & Hr2 & _ & _ & Hp2 & He2). simpl in *.
    assert (t1 = t2) as ->; [|by eapply encs_inj].
    eapply (troot_inj H (λ x, x ∈ lg)); try done. congruence.
  Qed.

  (** ** Inclusion proofs *)
  (** C11 *)
  Theorem proofs_verify st lg hs r M D k v : hist st lg hs → no_collision H lg → (r, M) ∈ hs →
    M !! k = Some v → 8 * n + 1 ≤ D →
    ∃ proof, out B H (generate_inclusion_proof D r k) st = ROk proof ∧
      ∀ (B' : backend n) (st' : b_st B'), out B' H (verify_inclusion_proof enc r k v proof) st' = ROk tt.
  Proof.
    intros Hh Hc Hr HM HD.
    destruct (hist_handle st lg hs r M Hh Hc Hr) as (t & Hroot & Hwf & Hst & _ & He). simpl in *. subst r.
    pose proof (He k) as Hk. rewrite HM in Hk. inversion Hk as [v' e Hev Heq1 Heq2|]. subst v'.
    assert (tlookup t k = Some e) as Hl by (by rewrite tlookup_tmap).
    exists (reverse (tproof H t k)). split.
    - rewrite (gen_proof_run Hn) by (auto using twf_tpwf). rewrite Hl.
      pose proof (tneed_depth Hn t k). pose proof (twf_depth t Hwf).
      destruct (Nat.ltb_spec D (tneed t k)); [lia|done].
    - intros B' st'. by eapply verify_complete.
  Qed.
  (** C13 *)
  Theorem no_proof_absent st lg hs r M D k : hist st lg hs → no_collision H lg → (r, M) ∈ hs →
    M !! k = None → ∃ er, out B H (generate_inclusion_proof D r k) st = RErr er.
  Proof.
    intros Hh Hc Hr HM.
    destruct (hist_handle st lg hs r M Hh Hc Hr) as (t & Hroot & Hwf & Hst & _ & He). simpl in *. subst r.
    pose proof (He k) as Hk. rewrite HM in Hk. assert (tmap t !! k = None) as Heq by (by inversion Hk).
    rewrite (gen_proof_run Hn) by (auto using twf_tpwf). rewrite tlookup_tmap, Heq by done.
    destruct (D <? tneed t k); eauto.
  Qed.
  (** C12 *)
  Theorem proofs_sound st lg hs r M k v proof (B' : backend n) (st' : b_st B') :
    hist st lg hs → (r, M) ∈ hs →
    no_collision H (lg ++ hlog B' H (verify_inclusion_proof enc r k v proof) st') →
    out B' H (verify_inclusion_proof enc r k v proof) st' = ROk tt →
    M !! k = Some v.
  Proof.
    intros Hh Hr Hc Hout. set (L := lg ++ _) in *.
    assert (hinv L st hs) as [HJ Hf] by (eapply hist_hinv; eauto; intros; apply elem_of_app; by left).
    rewrite Forall_forall in Hf. destruct (Hf _ Hr) as (t & Hroot & Hwf & Hst & Hpre & He). simpl in *.
    destruct (verify_ok_inv B' H enc r k v proof st' Hout)
      as (e & p0 & p1 & items & Hev & -> & Hp0 & Hp1 & Hfold & Hlog).
    assert ((k, e) ∈ tleaves t) as Hin.
    { eapply (vfold_sound H (λ x, x ∈ L) items); try done.
      - apply elem_of_app. right. rewrite Hlog. by left.
      - apply elem_of_app. right. rewrite Hlog. right. by left.
      - apply Forall_forall. intros x Hx. apply elem_of_app. right. rewrite Hlog. right. by right.
      - congruence. }
    destruct (tleaves_decodes t M k e) as (v' & Hv' & HM); try done.
    rewrite (dec_enc _ _ Hcodec v e Hev) in Hv'. congruence.
  Qed.
  (** C14 *)
  Theorem one_value_per_key st lg hs r M k v1 v2 p1 p2 (B1 B2 : backend n) (st1 : b_st B1) (st2 : b_st B2) :
    hist st lg hs → (r, M) ∈ hs →
    no_collision H (lg ++ hlog B1 H (verify_inclusion_proof enc r k v1 p1) st1
                       ++ hlog B2 H (verify_inclusion_proof enc r k v2 p2) st2) →
    out B1 H (verify_inclusion_proof enc r k v1 p1) st1 = ROk tt →
    out B2 H (verify_inclusion_proof enc r k v2 p2) st2 = ROk tt →
    v1 = v2.
  Proof.
    intros Hh Hr Hc H1 H2.
    apply (proofs_sound st lg hs r M k v1 p1 B1 st1) in H1; try done.
    2:{ eapply no_collision_sub; [|done]. intros x. rewrite !elem_of_app. naive_solver. }
    apply (proofs_sound st lg hs r M k v2 p2 B2 st2) in H2; try done.
    2:{ eapply no_collision_sub; [|done]. intros x. rewrite !elem_of_app. naive_solver. }
    congruence.
  Qed.

  (** ** Arguments that are rejected *)
  (** C16 *)
  Theorem malformed_rejected D prev ks vs st : length ks ≠ length vs ∨ ks = [] →
    ∃ er, out B H (insert enc D prev ks vs) st = RErr er ∧
          fin B H (insert enc D prev ks vs) st = st ∧ hlog B H (insert enc D prev ks vs) st = [].
  Proof.
    intros Hl. unfold insert. destruct (Nat.eqb_spec (length ks) (length vs)) as [Hlen|Hlen]; simpl; [|eauto].
    destruct Hl as [?| ->]; [done|]. simpl. eauto.
  Qed.
  (** C17 *)
  Theorem duplicates_rejected st lg hs D prev ks vs : hist st lg hs →
    no_collision H (lg ++ hlog B H (insert enc D prev ks vs) st) → ¬ NoDup ks →
    ∃ er, out B H (insert enc D prev ks vs) st = RErr er.
  Proof.
    intros Hh Hc Hnd. set (L := lg ++ _) in *.
    assert (hinv L st hs) as [HJ _] by (eapply hist_hinv; eauto; intros; apply elem_of_app; by left).
    pose proof (insert_safe Hn H _ Hc B enc (enc_no_panic _ _ Hcodec) D _ prev ks vs st HJ) as Hw.
    apply wp_run in Hw; [|intros; apply elem_of_app; by right].
    destruct (out B H (insert enc D prev ks vs) st); try done; [|eauto].
    destruct Hw as (_ & _ & _ & t & _ & _ & Hx). done.
  Qed.
  (** C18 *)
  Lemma value_map_perm ks vs ks' vs' : length ks = length vs → length ks' = length vs' → NoDup ks →
    zip ks vs ≡ₚ zip ks' vs' → value_map_of ks vs = value_map_of ks' vs'.
  Proof.
    intros Hl Hl' Hnd Hp. assert (ks ≡ₚ ks') as Hk.
    { rewrite <- (fst_zip ks vs), <- (fst_zip ks' vs') by lia. by rewrite Hp. }
    rewrite !(value_map_zip Hn) by (try done; by rewrite <- Hk).
    apply list_to_map_proper; [by rewrite fst_zip by lia|done].
  Qed.
  Theorem batch_order D prev ks vs ks' vs' : length ks = length vs → length ks' = length vs' → NoDup ks →
    zip ks vs ≡ₚ zip ks' vs' →
    ∀ st, run B H (insert enc D prev ks vs) st = run B H (insert enc D prev ks' vs') st.
  Proof.
    intros Hl Hl' Hnd Hp st. assert (ks ≡ₚ ks') as Hk.
    { rewrite <- (fst_zip ks vs), <- (fst_zip ks' vs') by lia. by rewrite Hp. }
    unfold insert. rewrite <- Hl, <- Hl', !Nat.eqb_refl, (Permutation_length Hk).
    rewrite (sort_keys_proper _ _ Hk). by rewrite (value_map_perm ks vs ks' vs').
  Qed.

  (** ** No panics *)
  Theorem insert_no_panic st lg hs D prev ks vs : hist st lg hs →
    no_collision H (lg ++ hlog B H (insert enc D prev ks vs) st) →
    (∃ r, out B H (insert enc D prev ks vs) st = ROk r) ∨
    (∃ er, out B H (insert enc D prev ks vs) st = RErr er).
  Proof.
    intros Hh Hc. set (L := lg ++ _) in *.
    assert (hinv L st hs) as [HJ _] by (eapply hist_hinv; eauto; intros; apply elem_of_app; by left).
    pose proof (insert_safe Hn H _ Hc B enc (enc_no_panic _ _ Hcodec) D _ prev ks vs st HJ) as Hw.
    apply wp_run in Hw; [|intros; apply elem_of_app; by right].
    destruct (out B H (insert enc D prev ks vs) st); try done; eauto.
  Qed.

  (** ** Failures leave the other roots alone *)
  (** C08 *)
  Theorem failing_insert st lg hs D prev ks vs er r M : hist st lg hs →
    no_collision H (lg ++ hlog B H (insert enc D prev ks vs) st) →
    out B H (insert enc D prev ks vs) st = RErr er → (r, M) ∈ hs →
    holds (fin B H (insert enc D prev ks vs) st) r M.
  Proof.
    intros Hh Hc _ Hr. destruct (run_drop_result B H (insert enc D prev ks vs) st) as [Hf Hl].
    pose proof (hist_call B H enc dec st lg hs (CInsert D prev ks vs) Hh) as Hh'. cbn [exec] in Hh'.
    rewrite Hf, Hl in Hh'. by eapply hist_holds.
  Qed.
  (** C29 *)
  Theorem crash_safe st lg hs D prev ks vs st' r M : hist st lg hs →
    no_collision H (lg ++ hlog B H (insert enc D prev ks vs) st) →
    st' ∈ states B H (insert enc D prev ks vs) st → (r, M) ∈ hs → holds (b_drop B st') r M.
  Proof.
    intros Hh Hc Hst Hr. set (L := lg ++ _) in *.
    assert (hinv L st hs) as [HJ Hf] by (eapply hist_hinv; eauto; intros; apply elem_of_app; by left).
    apply J_rebase in HJ.
    pose proof (insert_safe Hn H _ Hc B enc (enc_no_panic _ _ Hcodec) D _ prev ks vs st HJ) as Hw.
    apply wp_states in Hw; [|done|intros; apply elem_of_app; by right].
    rewrite Forall_forall in Hw. rewrite Forall_forall in Hf. apply Hw in Hst. apply J_drop in Hst.
    apply (handle_holds L). eapply handle_mono; [|by apply Hf]. apply Hst.
  Qed.
  (** C32 *)
  Lemma fault_outcome {A} (p : prog n A) i st :
    (run_fault B H i p st).1 = RErr "database failure" ∨
    run_fault B H i p st = (out B H p st, fin B H p st).
  Proof.
    unfold out, fin. revert i st.
    induction p as [a|er| | |cs kk IH|l kk IH|l nd kk IH|l kk IH|kk IH]; intros i st; simpl; try by right.
    - destruct (IH (H cs) i st) as [?|Heq]; [by left|]. right. rewrite Heq.
      by destruct (run B H (kk (H cs)) st) as [[o s'] log].
    - destruct i; [by left|]. apply IH.
    - destruct i; [by left|]. apply IH.
    - destruct i; [by left|]. apply IH.
    - destruct i; [by left|]. apply IH.
  Qed.
  Theorem fault_safe st lg hs D prev ks vs i r M : hist st lg hs →
    no_collision H (lg ++ hlog B H (insert enc D prev ks vs) st) → (r, M) ∈ hs →
    holds (run_fault B H i (insert enc D prev ks vs) st).2 r M ∧
    ((run_fault B H i (insert enc D prev ks vs) st).1 = RErr "database failure" ∨
     run_fault B H i (insert enc D prev ks vs) st =
       (out B H (insert enc D prev ks vs) st, fin B H (insert enc D prev ks vs) st)).
  Proof.
    intros Hh Hc Hr. split; [|apply fault_outcome]. set (L := lg ++ _) in *.
    assert (hinv L st hs) as [HJ Hf] by (eapply hist_hinv; eauto; intros; apply elem_of_app; by left).
    apply J_rebase in HJ.
    pose proof (insert_safe Hn H _ Hc B enc (enc_no_panic _ _ Hcodec) D _ prev ks vs st HJ) as Hw.
    apply wp_states in Hw; [|done|intros; apply elem_of_app; by right].
    rewrite Forall_forall in Hw. rewrite Forall_forall in Hf.
    apply (handle_holds L). eapply handle_mono; [|by apply Hf].
    destruct (run_fault_states B H i (insert enc D prev ks vs) st) as [Hin|(s' & Hin & ->)]; [by apply Hw|].
    apply Hw in Hin. apply J_drop in Hin. apply Hin.
  Qed.
  (** C44 *)
  Theorem reads_do_not_write st :
    (∀ D r ks, fin B H (get dec D r ks) st = st) ∧
    (∀ D r k, fin B H (get_one dec D r k) st = st) ∧
    (∀ D r k, fin B H (generate_inclusion_proof D r k) st = st) ∧
    (∀ r k v p, fin B H (verify_inclusion_proof enc r k v p) st = st).
  Proof.
    split_and!; intros; apply readonly_fin;
      auto using readonly_get, readonly_get_one, readonly_prove, readonly_verify.
  Qed.
  (** C43 *)
  Theorem single_key_agrees st lg hs r M D k : hist st lg hs → no_collision H lg → (r, M) ∈ hs →
    8 * n + 1 ≤ D →
    ∃ o, out B H (get_one dec D r k) st = ROk o ∧
         ∃ lm, out B H (get dec D r [k]) st = ROk lm ∧ lm !! k = Some o.
  Proof.
    intros Hh Hc Hr HD. exists (M !! k). split; [by eapply hist_holds|].
    destruct (get_exact st lg hs r M D [k]) as (lm & Hout & Hin & _); eauto; [left; apply benign_single|lia|].
    exists lm. split; [done|]. apply Hin. by left.
  Qed.
End Claims.

(** C09, for two histories on two backends *)
Theorem root_determined {n} (Hn : 0 < n) (B1 B2 : backend n) {HB1 : BackendOk B1} {HB2 : BackendOk B2}
    (H : list bytes → arr n) {V} (enc : V → res bytes) (dec : bytes → res V) :
  codec_ok enc dec → ∀ st1 lg1 hs1 st2 lg2 hs2 r1 r2 M,
  hist B1 H enc dec st1 lg1 hs1 → hist B2 H enc dec st2 lg2 hs2 →
  no_collision H lg1 → no_collision H lg2 → (r1, M) ∈ hs1 → (r2, M) ∈ hs2 → r1 = r2.
Proof.
  intros Hcodec st1 lg1 hs1 st2 lg2 hs2 r1 r2 M Hh1 Hh2 Hc1 Hc2 Hr1 Hr2.
  destruct (hist_handle Hn B1 H enc dec Hcodec _ _ _ _ _ Hh1 Hc1 Hr1) as (t1 & Ht1 & Hw1 & _ & _ & He1).
  destruct (hist_handle Hn B2 H enc dec Hcodec _ _ _ _ _ Hh2 Hc2 Hr2) as (t2 & Ht2 & Hw2 & _ & _ & He2).
  simpl in *. subst r1 r2. f_equal. apply twf_map_inj; [done|done|]. by eapply encs_fun.
Qed.
(** C10, for two histories *)
Theorem root_commits2 {n} (Hn : 0 < n) (B1 B2 : backend n) {HB1 : BackendOk B1} {HB2 : BackendOk B2}
    (H : list bytes → arr n) {V} (enc : V → res bytes) (dec : bytes → res V) :
  codec_ok enc dec → ∀ st1 lg1 hs1 st2 lg2 hs2 r M1 M2,
  hist B1 H enc dec st1 lg1 hs1 → hist B2 H enc dec st2 lg2 hs2 →
  no_collision H (lg1 ++ lg2) → (r, M1) ∈ hs1 → (r, M2) ∈ hs2 → M1 = M2.
Proof.
  intros Hcodec st1 lg1 hs1 st2 lg2 hs2 r M1 M2 Hh1 Hh2 Hc Hr1 Hr2.
  assert (no_collision H lg1) as Hc1 by (by eapply no_collision_app_l).
  assert (no_collision H lg2) as Hc2
    by (eapply no_collision_sub; [|exact Hc]; intros x ?; apply elem_of_app; by right).
  destruct (hist_handle Hn B1 H enc dec Hcodec _ _ _ _ _ Hh1 Hc1 Hr1) as (t1 & Ht1 & Hw1 & _ & Hp1 & He1).
  destruct (hist_handle Hn B2 H enc dec Hcodec _ _ _ _ _ Hh2 Hc2 Hr2) as (t2 & Ht2 & Hw2 & _ & Hp2 & He2).
  simpl in *. assert (t1 = t2) as ->; [|by eapply encs_inj].
  eapply (troot_inj H (λ x, x ∈ lg1 ++ lg2)); [exact Hc| | |congruence].
  - eapply Forall_impl; [exact Hp1|]. intros x ?. apply elem_of_app. by left.
  - eapply Forall_impl; [exact Hp2|]. intros x ?. apply elem_of_app. by right.
Qed.
