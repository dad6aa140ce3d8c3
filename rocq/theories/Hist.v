(** * Histories without removals *)
From Coq Require Import Strings.Byte NArith.
From stdpp Require Import prelude countable gmap sorting strings.
From Verif Require Import Model Bits Spec Util Trie Store Logic Build Evol Route Reads Insert Update Safe Get.

Local Open Scope nat_scope.

(** ** Programs that never write *)
Section ReadOnly.
  Context {n : nat} {V : Type} (enc : V → res bytes) (dec : bytes → res V) (D : nat).

  Lemma readonly_states {A} (B : backend n) H (p : prog n A) s :
    readonly p → ∀ s', s' ∈ states B H p s → s' = s.
  Proof.
    revert s. induction p as [a|e| | |cs k IH|l k IH|l nd k IH|l k IH|k IH]; intros s; simpl; try done;
      intros Hr s' Hs'; try (by apply elem_of_list_singleton in Hs');
      apply elem_of_cons in Hs' as [->|Hs']; try done; by eapply IH.
  Qed.
  Lemma readonly_push_cell q d l (ks : list (arr n)) : readonly (push_cell_if_node q d l ks).
  Proof. intros [nd|]; [by destruct ks|done]. Qed.
  Lemma readonly_get_loop fuel keys lm q : readonly (get_loop (n := n) dec D fuel keys lm q).
  Proof.
    revert lm q. induction fuel as [|fuel IH]; intros lm [|c q]; cbn [get_loop]; try done.
    destruct (D <? cdepth c); [done|]. destruct (var (cnode c)) as [cnt zero one si bk|lk ld|e]; [| |done].
    - apply readonly_bind; [apply readonly_lift|]. intros m.
      apply readonly_bind; [apply readonly_lift|]. intros ds.
      destruct ds; [apply IH|]. apply readonly_bind; [apply readonly_lift|]. intros zo.
      apply readonly_bind; [apply readonly_push_cell|]. intros q1.
      apply readonly_bind; [apply readonly_push_cell|]. intros q2. apply IH.
    - apply readonly_bind; [by intros o|]. intros [nd|]; [|done].
      destruct (var nd) as [| |e]; try done.
      apply readonly_bind; [apply readonly_lift|]. intros v.
      destruct (binary_search keys lk); [|apply IH].
      apply readonly_bind; [apply readonly_lift|]. intros k. apply IH.
  Qed.
  Lemma readonly_get root (ks : list (arr n)) : readonly (get dec D root ks).
  Proof.
    unfold get. destruct ks as [|k ks]; [done|].
    apply readonly_bind; [by intros o|]. intros [nd|]; [|done]. apply readonly_get_loop.
  Qed.
  Lemma readonly_get_one root (k : arr n) : readonly (get_one dec D root k).
  Proof.
    unfold get_one. generalize (D + 2) as fuel. intros fuel. generalize 0, false, root. revert k.
    induction fuel as [|fuel IH]; intros k d fl l; cbn [get_one_loop]; [done|].
    destruct (D <? d); [done|]. apply readonly_bind; [by intros o|]. intros [nd|]; [|done].
    destruct (var nd) as [cnt zero one si bk|lk ld|e].
    - destruct fl; [done|]. apply readonly_bind; [apply readonly_lift|]. intros m.
      apply readonly_bind; [apply readonly_lift|]. intros [|d0 ds]; [done|].
      apply readonly_bind; [apply readonly_lift|]. intros z. apply IH.
    - destruct fl; [done|]. destruct (decide (lk = k)); [apply IH|done].
    - destruct fl; [|done]. simpl. apply readonly_bind; [apply readonly_lift|]. done.
  Qed.
  Lemma readonly_prove root (k : arr n) : readonly (generate_inclusion_proof D root k).
  Proof.
    unfold generate_inclusion_proof. generalize (D + 2) as fuel. intros fuel.
    generalize 0, false, (@nil (arr n * bool)), root. revert k.
    induction fuel as [|fuel IH]; intros k d fl acc l; cbn [gen_proof_loop]; [done|].
    destruct (D <? d); [done|]. apply readonly_bind; [by intros o|]. intros [nd|]; [|done].
    destruct (var nd) as [cnt zero one si bk|lk ld|e].
    - destruct fl; [done|]. apply readonly_bind; [apply readonly_lift|]. intros m.
      apply readonly_bind; [apply readonly_lift|]. intros [|d0 ds]; [done|].
      apply readonly_bind; [apply readonly_lift|]. intros [|]; apply IH.
    - destruct fl; [done|]. destruct (decide (lk = k)); [|done].
      apply readonly_bind; [by intros h|]. intros h. apply IH.
    - destruct fl; [|done]. simpl. done.
  Qed.
  Lemma readonly_verify root (k : arr n) v proof : readonly (verify_inclusion_proof enc root k v proof).
  Proof.
    unfold verify_inclusion_proof. destruct proof as [|p0 [|p1 items]]; [done|done|].
    apply readonly_bind; [apply readonly_lift|]. intros e.
    apply readonly_bind; [by intros h|]. intros h. destruct (decide _); [|done].
    apply readonly_bind; [by intros h'|]. intros h'. destruct (decide _); [|done].
    apply readonly_bind; [|intros c; by destruct (decide _)].
    clear. generalize h'. induction items as [|[x b] items IH]; intros c; [done|].
    cbn [verify_fold]. apply readonly_bind; [by intros h''|]. intros h''. apply IH.
  Qed.
End ReadOnly.

Lemma run_bind {n A C} (B : backend n) H (p : prog n A) (f : A → prog n C) s :
  run B H (p ≫= f) s =
    match run B H p s with
    | (ROk a, s', lg) => let '(o, s'', lg') := run B H (f a) s' in (o, s'', lg ++ lg')
    | (RErr e, s', lg) => (RErr e, s', lg)
    | (RPanic, s', lg) => (RPanic, s', lg)
    | (RFuel, s', lg) => (RFuel, s', lg)
    end.
Proof.
  change (p ≫= f) with (pbind f p).
  revert s. induction p as [a|e| | |cs k IH|l k IH|l nd k IH|l k IH|k IH]; intros s;
    cbn [pbind run]; auto.
  - by destruct (run B H (f a) s) as [[o s'] lg].
  - rewrite IH.
    destruct (run B H (k (H cs)) s) as [[[a|e| |] s'] lg]; try done.
    by destruct (run B H (f a) s') as [[o s''] lg'].
Qed.
Lemma run_drop_result {n A} (B : backend n) H (p : prog n A) s :
  fin B H (p ≫= λ _, mret tt) s = fin B H p s ∧ hlog B H (p ≫= λ _, mret tt) s = hlog B H p s.
Proof.
  unfold fin, hlog. rewrite run_bind. destruct (run B H p s) as [[[a|e| |] s'] lg]; try done.
  simpl. by rewrite app_nil_r.
Qed.

Section Hist.
  Context {n : nat} (Hn : 0 < n) (B : backend n) {HB : BackendOk B} (H : list bytes → arr n).
  Context {V : Type} (enc : V → res bytes) (dec : bytes → res V) (Hcodec : codec_ok enc dec).
  Implicit Types (st : b_st B) (lg L : list (list bytes)) (k : arr n) (ks : list (arr n)) (vs : list V).
  Implicit Types (M : gmap (arr n) V) (hs : list (arr n * gmap (arr n) V)) (t : trie n) (e : bytes).
  Notation Sof L := (λ x, x ∈ L).
  Let Henc : ∀ v, enc v ≠ Pan := enc_no_panic _ _ Hcodec.

  (** ** Encoded maps *)
  Definition encs M (Me : gmap (arr n) bytes) : Prop :=
    ∀ k, option_Forall2 (λ v e, enc v = Ok e) (M !! k) (Me !! k).
  Lemma encs_empty : encs ∅ ∅.
  Proof. intros k. rewrite !lookup_empty. constructor. Qed.
  Lemma encs_union M1 Me1 M2 Me2 : encs M1 Me1 → encs M2 Me2 → encs (M1 ∪ M2) (Me1 ∪ Me2).
  Proof.
    intros H1 H2 k. specialize (H1 k). specialize (H2 k). rewrite !lookup_union.
    destruct H1; destruct H2; simpl; by constructor.
  Qed.
  Lemma encs_has M Me k : encs M Me → has_key M k ↔ has_key Me k.
  Proof.
    intros He. specialize (He k). unfold has_key. destruct He; split; intros [? ?]; eauto; done.
  Qed.
  Lemma encs_benign M Me ks : encs M Me → benign M ks ↔ benign Me ks.
  Proof.
    intros He. unfold benign. split; intros Hb Hz; apply Hb; (eapply hazard_ext; [|exact Hz]);
      intros k; by rewrite (encs_has M Me k He).
  Qed.
  Lemma hazard_perm (P : arr n → Prop) ks ks' : ks ≡ₚ ks' → hazard P ks → hazard P ks'.
  Proof.
    intros Hp (a & b & x & y & ?&?&?&Hx&Hy&?). exists a, b, x, y. rewrite Hp in Hx, Hy. by split_and!.
  Qed.
  Lemma benign_sort {A} (M : gmap (arr n) A) ks : benign M ks → ¬ hazard (has_key M) (sort_keys ks).
  Proof. intros Hb Hz. apply Hb. eapply hazard_perm; [|exact Hz]. apply sort_keys_perm. Qed.

  Lemma misled_perm (P Q : arr n → Prop) ks ks' : ks ≡ₚ ks' → misled P Q ks → misled P Q ks'.
  Proof.
    intros Hp (a & b & x & y & d & ?&?&?&Hx&Hy&Hd&?&?). exists a, b, x, y, d. rewrite Hp in Hx, Hy, Hd. by split_and!.
  Qed.
  Lemma benign_mild {A} (M : gmap (arr n) A) ks : benign M ks → mild M ks.
  Proof. by left. Qed.
  Lemma mild_mild_get {A} (M : gmap (arr n) A) ks : mild M ks → mild_get M ks.
  Proof.
    intros [Hb|Hm]; [by left|right]. intros Hz. apply Hm.
    eapply misled_ext; [by intros k|by intros ? _|exact Hz].
  Qed.
  Lemma encs_mild M Me ks : encs M Me → mild M ks → mild Me ks.
  Proof.
    intros He [Hb|Hm]; [left; by apply (encs_benign M Me)|right]. intros Hz. apply Hm.
    eapply misled_ext; [|by intros ? _|exact Hz]. intros k. by rewrite (encs_has M Me k He).
  Qed.
  Lemma encs_mild_get M Me ks : encs M Me → mild_get M ks → mild_get Me ks.
  Proof.
    intros He [Hb|Hm]; [left; by apply (encs_benign M Me)|right]. intros Hz. apply Hm.
    eapply misled_ext; [| |exact Hz]; intros k; by rewrite (encs_has M Me k He).
  Qed.
  Lemma mild_sort {A} (M : gmap (arr n) A) ks : mild M ks → mild M (sort_keys ks).
  Proof.
    intros [Hb|Hm]; [left; by apply benign_sort|right]. intros Hz. apply Hm.
    eapply misled_perm; [|exact Hz]. apply sort_keys_perm.
  Qed.
  Lemma mild_get_sort {A} (M : gmap (arr n) A) ks : mild_get M ks → mild_get M (sort_keys ks).
  Proof.
    intros [Hb|Hm]; [left; by apply benign_sort|right]. intros Hz. apply Hm.
    eapply misled_perm; [|exact Hz]. apply sort_keys_perm.
  Qed.

  Lemma encs_batch ks vs es : length ks = length vs → NoDup ks →
    Forall2 (λ k e, encg enc (value_map_of ks vs) k = Some e) (sort_keys ks) es →
    encs (list_to_map (zip ks vs)) (list_to_map (zip (sort_keys ks) es)).
  Proof.
    intros Hlen Hnd Hf k. rewrite (value_map_zip Hn ks vs Hlen Hnd) in Hf.
    assert (length (sort_keys ks) = length es) as Hle by (by eapply Forall2_length).
    assert (NoDup (sort_keys ks)) as Hnd' by (by rewrite sort_keys_perm).
    destruct (decide (k ∈ ks)) as [Hin|Hni].
    - apply elem_of_sort_keys in Hin. apply elem_of_list_lookup_1 in Hin as [i Hi].
      destruct (Forall2_lookup_l _ _ _ _ _ Hf Hi) as (e & Hei & He).
      apply encg_Some in He as (v & Hv & He). rewrite Hv.
      assert (list_to_map (M := gmap (arr n) bytes) (zip (sort_keys ks) es) !! k = Some e) as ->.
      { apply elem_of_list_to_map; [by rewrite fst_zip by lia|].
        apply elem_of_list_lookup. exists i. apply lookup_zip_with_Some. eauto. }
      by constructor.
    - rewrite !(proj1 (not_elem_of_list_to_map _ _)); [constructor| |].
      + rewrite fst_zip by lia. by rewrite elem_of_sort_keys.
      + by rewrite fst_zip by lia.
  Qed.

  (** ** The invariant *)
  Definition handle_ok L (m : db n) (h : arr n * gmap (arr n) V) : Prop :=
    ∃ t, h.1 = troot H t ∧ twf t ∧ stored H m t ∧ Forall (Sof L) (tpre H t) ∧ encs h.2 (tmap t).
  Definition hinv L st hs : Prop :=
    J H (Sof L) B ∅ st ∧ Forall (handle_ok L (b_vis B st)) hs.

  Lemma handle_mono L m m' h : cle m m' → handle_ok L m h → handle_ok L m' h.
  Proof. intros Hc (t & ? & ? & ? & ? & ?). exists t. split_and!; try done. by eapply stored_mono. Qed.
  Lemma handles_mono L m m' hs : cle m m' → Forall (handle_ok L m) hs → Forall (handle_ok L m') hs.
  Proof. intros Hc Hf. eapply Forall_impl; [exact Hf|]. intros h. by apply handle_mono. Qed.

  Lemma hinv_step L st st' hs : hinv L st hs → J H (Sof L) B (b_vis B st) st' → hinv L st' hs.
  Proof.
    intros [HJ Hh] HJ'. split; [|].
    - eapply J_weaken; [|exact HJ']. apply HJ.
    - eapply handles_mono; [|exact Hh]. apply HJ'.
  Qed.
  Lemma J_drop (S : list bytes → Prop) m0 st : J H S B m0 st → J H S B m0 (b_drop B st).
  Proof.
    intros (?&?&?&?). unfold Jp. rewrite bvis_drop, bview_drop. split_and!; try done. apply cle_refl.
  Qed.


  Lemma exec_states L st c : inj_on H (Sof L) → J H (Sof L) B (b_vis B st) st →
    (∀ x, x ∈ hlog B H (exec enc dec c) st → x ∈ L) →
    Forall (J H (Sof L) B (b_vis B st)) (states B H (exec enc dec c) st).
  Proof.
    intros Hinj HJ Hlg.
    assert (∀ p : prog n unit, readonly p → Forall (J H (Sof L) B (b_vis B st)) (states B H p st)) as Hro.
    { intros p Hp. apply Forall_forall. intros s' Hs'. by rewrite (readonly_states B H p st Hp s' Hs'). }
    assert (∀ D prev ks vs, (∀ x, x ∈ hlog B H (insert enc D prev ks vs ;; mret tt) st → x ∈ L) →
      Forall (J H (Sof L) B (b_vis B st)) (states B H (insert enc D prev ks vs ;; mret tt) st)) as Hins.
    { intros D prev ks vs Hl. eapply (wp_states B H (Sof L) _ _ (λ _ _, True) (λ _ _, True)); [done| |exact Hl]. apply wp_bind.
      eapply wp_mono; [| |by apply (insert_safe Hn H _ Hinj B enc Henc D (b_vis B st))].
      - done.
      - done. }
    destruct c as [D prev ks vs|D prev k v|D root ks|D root k|D root k|root k v proof]; cbn [exec] in *.
    - by apply Hins.
    - rewrite insert_one_insert in *. by apply Hins.
    - apply Hro, readonly_bind; [apply readonly_get|done].
    - apply Hro, readonly_bind; [apply readonly_get_one|done].
    - apply Hro, readonly_bind; [apply readonly_prove|done].
    - apply Hro, readonly_verify.
  Qed.

  (** ** Insertion of a mild batch on a known root *)
  Lemma prev_old L m hs prev M : Forall (handle_ok L m) hs → prev_holds hs prev M →
    ∃ old, prev = troot H <$> old ∧ oldok H (Sof L) m old ∧ owf old ∧ encs M (omap old).
  Proof.
    intros Hh Hp. destruct prev as [r|]; simpl in Hp.
    - rewrite Forall_forall in Hh. destruct (Hh _ Hp) as (t & Hr & Hwf & Hst & Hpre & He). simpl in *.
      exists (Some t). cbn. split_and!; try done; [by rewrite Hr|by apply twf_tpwf].
    - subst M. exists None. split_and!; try done. apply encs_empty.
  Qed.

  Theorem insert_hist L st hs D prev M ks vs : inj_on H (Sof L) → hinv L st hs →
    prev_holds hs prev M → mild M ks →
    wp B H (Sof L) (J H (Sof L) B (b_vis B st)) (insert enc D prev ks vs)
      (λ r st', hinv L st' ((r, updated M ks vs) :: hs) ∧ b_vis B st' = bview st' ∧ bpend st' = [] ∧
         length ks = length vs ∧ ks ≠ [] ∧ NoDup ks)
      (λ er st', hinv L st' hs ∧
         (length ks ≠ length vs ∨ ks = [] ∨ ¬ NoDup ks ∨ (∃ v, v ∈ vs ∧ enc v = Err er) ∨
          (er = "Depth of merkle tree exceeded" ∧ is_Some prev ∧ D < 8 * n))) st.
  Proof.
    intros Hinj Hi Hp Hb. pose proof Hi as [HJ Hh]. apply J_rebase in HJ.
    unfold insert.
    destruct (Nat.eqb_spec (length ks) (length vs)) as [Hlen|Hlen]; [|simpl; auto]. simpl.
    destruct (Nat.eqb_spec (length ks) 0) as [Hz|Hne].
    { simpl. split; [done|]. right. left. by apply length_zero_iff_nil. }
    destruct (Nat.eqb_spec (length vs) 0) as [|Hne']; [lia|]. simpl.
    destruct (prev_old L _ hs prev M Hh Hp) as (old & -> & Hok & Hwf & He).
    assert (mild (omap old) (sort_keys ks)) as Hhz.
    { apply mild_sort. by apply (encs_mild M (omap old) ks He). }
    assert (sort_keys ks ≠ []) as Hsne.
    { intros Hnil. apply Hne. rewrite <- sort_keys_length, Hnil. done. }
    eapply wp_mono; [| |apply (insert_sorted_wp Hn H (Sof L) Hinj B enc Henc D (sort_keys ks)
      (value_map_of ks vs) old st HJ Hok (sort_keys_sorted ks) Hsne)].
    - intros r st' (es & m' & P' & t & ts & -> & Hes & Hpre & Hev & HG & Hvis & Hpend & Hts & Hsort & Hlv & Hgd & Hdep).
      assert (length (sort_keys ks) = length es) as Hle by (by eapply Forall2_length).
      pose proof (result_nodup (sort_keys ks) es old Hle ts Hts Hsort) as Hnd.
      apply NoDup_app in Hnd as (Hnd & _ & _). rewrite sort_keys_perm in Hnd.
      assert (twf t) as Ht.
      { apply Hgd. eapply result_good; eauto. apply sort_keys_sorted. }
      assert (tmap t = list_to_map (zip (sort_keys ks) es) ∪ omap old) as Htm.
      { eapply result_map; eauto. apply sort_keys_sorted. }
      pose proof HG as (HJ' & Hv' & _ & Htok).
      apply Forall_cons in Htok as [(Hst & _ & Htpre) _]. cbn [fst snd] in *.
      split_and!; try done; [|by intros ->].
      + apply hinv_step with (st' := st') in Hi as [Hi1 Hi2]; [|done].
        split; [done|]. constructor; [|done].
        exists t. cbn [fst snd]. split_and!; try done.
        * rewrite Hvis, Hv'. done.
        * rewrite Htm. unfold updated. apply encs_union; [|done]. by apply encs_batch.
    - intros er st' (HJ' & Hc). split; [by eapply hinv_step|].
      destruct Hc as [(k & v & Hk & Hv & Herr)|[(-> & Hd)|(-> & Hnd)]].
      + right. right. right. left. exists v. split; [|done].
        unfold value_map_of in Hv. rewrite foldl_insert_lookup in Hv.
        destruct (last (filter _ _)) as [p|] eqn:Hl; [|by rewrite lookup_empty in Hv].
        injection Hv as <-. apply last_Some_elem_of in Hl.
        apply elem_of_list_filter in Hl as [_ Hin]. destruct p as [k' v'].
        by apply elem_of_zip_r in Hin.
      + right. right. right. right. destruct old as [t|]; simpl in Hd; [|lia].
        split_and!; [done|by eexists|]. pose proof (wdep_depth t (sort_keys ks)).
        pose proof (twf_depth t Hwf). lia.
      + right. right. left. intros Hnd'. apply Hnd. apply mild_nodup; try done.
        * apply sort_keys_sorted.
        * by rewrite sort_keys_perm.
    - intros k Hk. apply value_map_some; [done|done|]. by apply elem_of_sort_keys.
  Qed.

  Theorem hist_inv L st lg hs : inj_on H (Sof L) → hist B H enc dec st lg hs →
    (∀ x, x ∈ lg → x ∈ L) → hinv L st hs.
  Proof.
    intros Hinj Hh. 
    induction Hh as [|st lg hs D prev M ks vs r Hh IH Hp Hb Hout|st lg hs c Hh IH|st lg hs c st' Hh IH Hst
      |st lg hs c i Hh IH]; intros Hlg.
    - split; [|constructor]. unfold Jp. rewrite bvis_init, bview_init.
      split_and!; try apply proper_empty; apply cle_refl.
    - assert (hinv L st hs) as Hi by (apply IH; intros; apply Hlg, elem_of_app; by left).
      pose proof (insert_hist L st hs D prev M ks vs Hinj Hi Hp Hb) as Hw.
      apply wp_run in Hw; [|intros; apply Hlg, elem_of_app; by right].
      rewrite Hout in Hw. by destruct Hw as [? _].
    - assert (hinv L st hs) as Hi by (apply IH; intros; apply Hlg, elem_of_app; by left).
      pose proof (exec_states L st c Hinj) as Hs.
      assert (J H (Sof L) B (b_vis B st) st) as HJ by (by eapply J_rebase, Hi).
      specialize (Hs HJ ltac:(intros; apply Hlg, elem_of_app; by right)).
      eapply hinv_step; [done|]. rewrite Forall_forall in Hs. apply Hs, run_in_states.
    - assert (hinv L st hs) as Hi by (apply IH; intros; apply Hlg, elem_of_app; by left).
      pose proof (exec_states L st c Hinj) as Hs.
      assert (J H (Sof L) B (b_vis B st) st) as HJ by (by eapply J_rebase, Hi).
      specialize (Hs HJ ltac:(intros; apply Hlg, elem_of_app; by right)).
      eapply hinv_step; [done|]. rewrite Forall_forall in Hs. by apply J_drop, Hs.
    - assert (hinv L st hs) as Hi by (apply IH; intros; apply Hlg, elem_of_app; by left).
      pose proof (exec_states L st c Hinj) as Hs.
      assert (J H (Sof L) B (b_vis B st) st) as HJ by (by eapply J_rebase, Hi).
      specialize (Hs HJ ltac:(intros; apply Hlg, elem_of_app; by right)).
      rewrite Forall_forall in Hs.
      eapply hinv_step; [done|].
      destruct (run_fault_states B H i (exec enc dec c) st) as [Hin|(s' & Hin & ->)]; [by apply Hs|].
      by apply J_drop, Hs.
  Qed.
End Hist.
