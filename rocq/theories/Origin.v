(** * Where the entries of a tree come from, for arbitrary batches *)
From Coq Require Import Strings.Byte NArith.
From stdpp Require Import prelude countable gmap sorting strings.
From Verif Require Import Model Bits Spec Util Trie Store Logic Build Evol Route Reads Insert Update Safe Get
  Hist RefCount Claims Shape.

Local Open Scope nat_scope.

Section Origin.
  Context {n : nat} (Hn : 0 < n) (B : backend n) {HB : BackendOk B} (H : list bytes → arr n).
  Context {V : Type} (enc : V → res bytes) (dec : bytes → res V) (Hcodec : codec_ok enc dec).
  Implicit Types (st : b_st B) (lg L : list (list bytes)) (k r : arr n) (ks : list (arr n)) (vs : list V).
  Implicit Types (ps : list (arr n * V)) (us : list (arr n * list (arr n * V))) (t : trie n) (e : bytes).
  Notation Sof L := (λ x, x ∈ L).
  Notation uhist := (uhist B H enc dec).
  Let Henc : ∀ v, enc v ≠ Pan := enc_no_panic _ _ Hcodec.

  (** A leaf not deleted is in one of the remaining pieces. *)
  Lemma wdec_keeps (del : arr n → bool) t ks x : x ∈ tleaves t → del x.1 = false →
    ∃ p, p ∈ wdec del t ks ∧ x ∈ tleaves p.
  Proof.
    revert ks. induction t as [k e|l IHl r IHr]; intros ks Hx Hd; cbn [wdec].
    - cbn in Hx. apply elem_of_list_singleton in Hx as ->. cbn in Hd. rewrite Hd.
      exists (TLeaf k e). split; by left.
    - destruct (node_desc ks (tsplit l r) (tmin l)) as [|d ds].
      { exists (TNode l r). split; [by left|done]. }
      cbn [tleaves] in Hx. destruct (node_split (d :: ds) (tsplit l r)) as [zs os]. cbn [fst snd].
      apply elem_of_app in Hx as [Hx|Hx].
      + destruct zs as [|z zs].
        { exists l. split; [by left|done]. }
        destruct (IHl (z :: zs) Hx Hd) as (p & Hp & ?). exists p. split; [|done]. apply elem_of_app. by left.
      + destruct os as [|o os].
        { exists r. split; [apply elem_of_app; right; by left|done]. }
        destruct (IHr (o :: os) Hx Hd) as (p & Hp & ?). exists p. split; [|done]. apply elem_of_app. by right.
  Qed.

  Definition owned L (m : db n) (u : arr n * list (arr n * V)) : Prop :=
    ∃ t, u.1 = troot H t ∧ tpwf t ∧ stored H m t ∧ Forall (Sof L) (tpre H t) ∧
      (∀ k e, (k, e) ∈ tleaves t → ∃ v, (k, v) ∈ u.2 ∧ enc v = Ok e) ∧
      (∀ k v, list_to_map (M := gmap (arr n) V) u.2 !! k = Some v → ∃ e, enc v = Ok e ∧ (k, e) ∈ tleaves t).
  Definition uinv L st us : Prop := J H (Sof L) B ∅ st ∧ Forall (owned L (b_vis B st)) us.

  Lemma uinv_step L st st' us : uinv L st us → J H (Sof L) B (b_vis B st) st' → uinv L st' us.
  Proof.
    intros [HJ Hh] HJ'. split.
    - eapply J_weaken; [|exact HJ']. apply HJ.
    - eapply Forall_impl; [exact Hh|]. intros u (t & ?&?&?&?&?&?). exists t. split_and!; try done.
      eapply stored_mono; [|done]. apply HJ'.
  Qed.

  Theorem insert_origin L st us D prev ps ks vs : inj_on H (Sof L) → uinv L st us →
    (match prev with None => ps = [] | Some r0 => (r0, ps) ∈ us end) →
    wp B H (Sof L) (J H (Sof L) B (b_vis B st)) (insert enc D prev ks vs)
      (λ r st', uinv L st' ((r, zip ks vs ++ ps) :: us)) (λ er st', uinv L st' us) st.
  Proof.
    intros Hinj Hi Hp. pose proof Hi as [HJ Hh]. apply J_rebase in HJ. unfold insert.
    destruct (Nat.eqb_spec (length ks) (length vs)) as [Hlen|Hlen]; [|by simpl]. simpl.
    destruct (Nat.eqb_spec (length ks) 0) as [Hz|Hne]; [by simpl|].
    destruct (Nat.eqb_spec (length vs) 0) as [|Hne']; [lia|]. simpl.
    assert (∃ old, prev = troot H <$> old ∧ oldok H (Sof L) (b_vis B st) old ∧
      (∀ k e t, old = Some t → (k, e) ∈ tleaves t → ∃ v, (k, v) ∈ ps ∧ enc v = Ok e) ∧
      (∀ k v, list_to_map (M := gmap (arr n) V) ps !! k = Some v →
         ∃ t e, old = Some t ∧ enc v = Ok e ∧ (k, e) ∈ tleaves t)) as (old & -> & Hok & Hsub & Hsup).
    { destruct prev as [r0|]; simpl in Hp.
      - rewrite Forall_forall in Hh. destruct (Hh _ Hp) as (t & Hr & Hw & Hst & Hpre & Ha & Hb). simpl in *.
        exists (Some t). cbn. split; [by rewrite Hr|]. split; [done|]. split; [naive_solver|].
        intros k v Hv. destruct (Hb k v Hv) as (e & ?&?). eauto.
      - subst ps. exists None. by split_and!. }
    assert (sort_keys ks ≠ []) as Hsne.
    { intros Hnil. apply Hne. rewrite <- sort_keys_length, Hnil. done. }
    eapply wp_mono; [| |apply (insert_sorted_wp Hn H (Sof L) Hinj B enc Henc D (sort_keys ks)
      (value_map_of ks vs) old st HJ Hok (sort_keys_sorted ks) Hsne)].
    - intros r st' (es & m' & P' & t & ts & -> & Hes & Hpre & Hev & HG & Hvis & Hpend & Hts & Hsort & Hlv & Hgd & Hdep).
      assert (length (sort_keys ks) = length es) as Hle by (by eapply Forall2_length).
      pose proof (result_nodup (sort_keys ks) es old Hle ts Hts Hsort) as Hnd.
      apply NoDup_app in Hnd as (Hnd & _ & _). rewrite sort_keys_perm in Hnd.
      assert (∀ k e, (k, e) ∈ tleaves t ↔ (k, e) ∈ zip (sort_keys ks) es ∨
        ∃ p, p ∈ olddec old (sort_keys ks) ∧ (k, e) ∈ tleaves p) as Hel by (intros; by eapply result_elem).
      pose proof (encs_batch Hn enc ks vs es Hlen Hnd Hes) as Hb.
      assert (NoDup (zip ks vs).*1) as Hndv by (by rewrite fst_zip by lia).
      assert (NoDup (zip (sort_keys ks) es).*1) as Hnde by (by rewrite fst_zip, sort_keys_perm by lia).
      pose proof HG as (HJ' & Hv' & _ & Htok).
      apply Forall_cons in Htok as [(Hst & Hpw & Htpre) _]. cbn [fst snd] in *.
      apply uinv_step with (st' := st') in Hi as [Hi1 Hi2]; [|done].
      split; [done|]. constructor; [|done].
      exists t. cbn [fst snd]. split_and!; try done.
      + rewrite Hvis, Hv'. done.
      + intros k e [Hx|(p & Hp1 & Hp2)]%Hel.
        * apply elem_of_list_to_map_1 in Hx; [|done]. specialize (Hb k). rewrite Hx in Hb.
          inversion Hb as [v e' He Hv Heq|]; subst. exists v. split; [|done].
          apply elem_of_app. left. symmetry in Hv. by apply elem_of_list_to_map_2 in Hv.
        * destruct (olddec_leaves_old old (sort_keys ks) p k e Hp1 Hp2) as (t0 & Ho & Hin).
          destruct (Hsub k e t0 Ho Hin) as (v & ?&?). exists v. split; [|done]. apply elem_of_app. by right.
      + intros k v Hv. rewrite list_to_map_app in Hv. apply lookup_union_Some_raw in Hv as [Hv|[Hno Hv]].
        * specialize (Hb k). rewrite Hv in Hb. inversion Hb as [v' e He Hv1 Heq|]; subst.
          exists e. split; [done|]. apply Hel. left. symmetry in Heq. by apply elem_of_list_to_map_2 in Heq.
        * destruct (Hsup k v Hv) as (t0 & e & -> & He & Hin). exists e. split; [done|]. apply Hel. right.
          cbn [olddec]. apply (wdec_keeps _ t0 (sort_keys ks) (k, e) Hin). cbn.
          apply bool_decide_eq_false. rewrite elem_of_sort_keys. intros Hk.
          apply not_elem_of_list_to_map_2 in Hno. by rewrite fst_zip in Hno by lia.
    - intros er st' (HJ' & _). by eapply uinv_step.
    - intros k Hk. apply value_map_some; [done|done|]. by apply elem_of_sort_keys.
  Qed.

  Theorem uhist_inv L st lg us : inj_on H (Sof L) → uhist st lg us → (∀ x, x ∈ lg → x ∈ L) → uinv L st us.
  Proof.
    intros Hinj Hh.
    induction Hh as [|st lg us D prev ps ks vs r Hh IH Hp Hout|st lg us c Hh IH|st lg us c st' Hh IH Hst
      |st lg us c i Hh IH]; intros Hlg.
    - split; [|constructor]. unfold Jp. rewrite bvis_init, bview_init.
      split_and!; try apply proper_empty; apply cle_refl.
    - assert (uinv L st us) as Hi by (apply IH; intros; apply Hlg, elem_of_app; by left).
      pose proof (insert_origin L st us D prev ps ks vs Hinj Hi Hp) as Hw.
      apply wp_run in Hw; [|intros; apply Hlg, elem_of_app; by right].
      by rewrite Hout in Hw.
    - assert (uinv L st us) as Hi by (apply IH; intros; apply Hlg, elem_of_app; by left).
      pose proof (exec_states Hn B H enc dec Hcodec L st c Hinj) as Hs.
      assert (J H (Sof L) B (b_vis B st) st) as HJ by (by eapply J_rebase, Hi).
      specialize (Hs HJ ltac:(intros; apply Hlg, elem_of_app; by right)).
      eapply uinv_step; [done|]. rewrite Forall_forall in Hs. apply Hs, run_in_states.
    - assert (uinv L st us) as Hi by (apply IH; intros; apply Hlg, elem_of_app; by left).
      pose proof (exec_states Hn B H enc dec Hcodec L st c Hinj) as Hs.
      assert (J H (Sof L) B (b_vis B st) st) as HJ by (by eapply J_rebase, Hi).
      specialize (Hs HJ ltac:(intros; apply Hlg, elem_of_app; by right)).
      eapply uinv_step; [done|]. rewrite Forall_forall in Hs. by apply J_drop, Hs.
    - assert (uinv L st us) as Hi by (apply IH; intros; apply Hlg, elem_of_app; by left).
      pose proof (exec_states Hn B H enc dec Hcodec L st c Hinj) as Hs.
      assert (J H (Sof L) B (b_vis B st) st) as HJ by (by eapply J_rebase, Hi).
      specialize (Hs HJ ltac:(intros; apply Hlg, elem_of_app; by right)).
      rewrite Forall_forall in Hs.
      eapply uinv_step; [done|].
      destruct (run_fault_states B H i (exec enc dec c) st) as [Hin|(s' & Hin & ->)]; [by apply Hs|].
      by apply J_drop, Hs.
  Qed.

  Lemma uhist_owned st lg us r ps L : uhist st lg us → no_collision H L → (∀ x, x ∈ lg → x ∈ L) → (r, ps) ∈ us →
    owned L (b_vis B st) (r, ps).
  Proof.
    intros Hh Hc Hs Hin. destruct (uhist_inv L st lg us Hc Hh Hs) as [_ Hf].
    rewrite Forall_forall in Hf. by apply Hf.
  Qed.

  (** ** The claims *)
  (** C64 *)
  Theorem get_one_origin st lg us r ps D k : uhist st lg us → no_collision H lg → (r, ps) ∈ us →
    out B H (get_one dec D r k) st = RErr "Depth limit exceeded" ∨
    ∃ o, out B H (get_one dec D r k) st = ROk o ∧ ∀ v, o = Some v → (k, v) ∈ ps.
  Proof.
    intros Hh Hc Hin. destruct (uhist_owned st lg us r ps lg Hh Hc ltac:(done) Hin) as (t & Hr & Hw & Hst & _ & Hl & _).
    simpl in *. subst r. unfold out. rewrite (get_one_run Hn B H dec D k t st Hst Hw). cbn [fst].
    destruct (D <? tneed t k); [by left|]. right. destruct (tlookup t k) as [e|] eqn:Hk; [|by exists None].
    apply tlookup_elem in Hk. destruct (Hl k e Hk) as (v & Hv & He).
    rewrite (dec_enc _ _ Hcodec v e He). exists (Some v). split; [done|]. by intros ? [= <-].
  Qed.
  Theorem get_origin st lg us r ps D ks : uhist st lg us → no_collision H lg → (r, ps) ∈ us →
    out B H (get dec D r ks) st = RErr "Depth of merkle tree exceeded" ∨
    ∃ lm, out B H (get dec D r ks) st = ROk lm ∧ (∀ k, is_Some (lm !! k) ↔ k ∈ ks) ∧
      ∀ k v, lm !! k = Some (Some v) → (k, v) ∈ ps.
  Proof.
    intros Hh Hc Hin. destruct (uhist_owned st lg us r ps lg Hh Hc ltac:(done) Hin) as (t & Hr & Hw & Hst & _ & Hl & _).
    simpl in *. subst r.
    pose proof (get_wp Hn H B dec (dec_no_panic _ _ Hcodec) D t ks st Hst Hw) as Hg.
    apply wp_run in Hg; [|by intros].
    destruct (out B H (get dec D (troot H t) ks) st) as [lm|er| |]; try done.
    - right. exists lm. split; [done|]. destruct Hg as (_ & [Hd Hs] & _ & _). split.
      + intros k. rewrite <- not_eq_None_Some, Hd. split; [apply dec_stable|auto].
      + intros k v Hk. destruct (Hs k v Hk) as (e & He & Hde). destruct (Hl k e He) as (v' & Hv' & He').
        rewrite (dec_enc _ _ Hcodec v' e He') in Hde. congruence.
    - left. destruct Hg as (_ & [(-> & Hlt)|(k & e & He & Hde)]); [done|].
      destruct (Hl k e He) as (v' & Hv' & He'). rewrite (dec_enc _ _ Hcodec v' e He') in Hde. congruence.
  Qed.
  Theorem stored_origin st lg us r ps k e : uhist st lg us → no_collision H lg → (r, ps) ∈ us →
    pair_below (b_vis B st) r k e → ∃ v, (k, v) ∈ ps ∧ enc v = Ok e.
  Proof.
    intros Hh Hc Hin (l & d & rf & rf' & Hrtc & Hl & Hd).
    destruct (uhist_owned st lg us r ps lg Hh Hc ltac:(done) Hin) as (t & Hr & Hw & Hst & _ & Ho & _).
    simpl in *. subst r. apply Ho.
    destruct (below_in H _ t l Hst Hrtc) as [(u & Hu & ->)|(x & Hx)].
    - assert (stored H (b_vis B st) u) as Hsu by (by eapply subtrie_stored).
      eapply subtrie_leaves; [exact Hu|]. destruct u as [k' e'|a b].
      + destruct Hsu as [Hs1 Hs2]. apply has_lookup in Hs1 as [rf1 Hs1]. apply has_lookup in Hs2 as [rf2 Hs2].
        simpl in Hl, Hs1, Hs2. rewrite Hl in Hs1. injection Hs1 as -> -> ->. rewrite Hd in Hs2.
        injection Hs2 as _ ->. by left.
      + destruct Hsu as [Hs1 _]. apply has_lookup in Hs1 as [rf1 Hs1]. simpl in Hl, Hs1. by rewrite Hl in Hs1.
    - apply has_lookup in Hx as [rf1 Hx]. by rewrite Hl in Hx.
  Qed.
  Theorem stored_kept st lg us r ps k v : uhist st lg us → no_collision H lg → (r, ps) ∈ us →
    list_to_map (M := gmap (arr n) V) ps !! k = Some v → ∃ e, enc v = Ok e ∧ pair_below (b_vis B st) r k e.
  Proof.
    intros Hh Hc Hin Hv.
    destruct (uhist_owned st lg us r ps lg Hh Hc ltac:(done) Hin) as (t & Hr & Hw & Hst & _ & _ & Ho).
    simpl in *. subst r. destruct (Ho k v Hv) as (e & He & Hel). exists e. split; [done|].
    clear -Hst Hel. induction t as [k' e'|l IHl r IHr].
    - cbn in Hel. apply elem_of_list_singleton in Hel as [= <- <-].
      destruct Hst as [Hs1 Hs2]. apply has_lookup in Hs1 as [rf1 Hs1]. apply has_lookup in Hs2 as [rf2 Hs2].
      simpl in Hs1, Hs2. exists (lloc H k e), (dloc H k e), rf1, rf2. by split_and!.
    - cbn [tleaves] in Hel. destruct Hst as (Hs & Hsl & Hsr). apply has_lookup in Hs as [rf Hs].
      assert (∀ x, x = troot H l ∨ x = troot H r → pair_below (b_vis B st) x k e →
        pair_below (b_vis B st) (troot H (TNode l r)) k e) as Hup.
      { intros x Hx (lf & d & rf1 & rf2 & Hr & Hl & Hd). exists lf, d, rf1, rf2. split_and!; try done.
        eapply rtc_l; [|exact Hr]. eexists. split; [exact Hs|]. simpl.
        destruct Hx as [->| ->]; [left|right; left]. }
      apply elem_of_app in Hel as [Hel|Hel]; [apply (Hup (troot H l))|apply (Hup (troot H r))]; auto.
  Qed.
  Theorem proof_origin st lg us r ps k v proof (B' : backend n) (st' : b_st B') : uhist st lg us → (r, ps) ∈ us →
    no_collision H (lg ++ hlog B' H (verify_inclusion_proof enc r k v proof) st') →
    out B' H (verify_inclusion_proof enc r k v proof) st' = ROk tt → (k, v) ∈ ps.
  Proof.
    intros Hh Hr Hc Hout. set (L := lg ++ _) in *.
    destruct (uhist_owned st lg us r ps L Hh Hc) as (t & Hroot & Hwf & Hst & Hpre & Ho & _); [|done|].
    { intros; apply elem_of_app; by left. }
    simpl in *.
    destruct (verify_ok_inv B' H enc r k v proof st' Hout)
      as (e & p0 & p1 & items & Hev & -> & Hp0 & Hp1 & Hfold & Hlog).
    assert ((k, e) ∈ tleaves t) as Hin.
    { eapply (vfold_sound H (λ x, x ∈ L) items); try done.
      - apply elem_of_app. right. rewrite Hlog. by left.
      - apply elem_of_app. right. rewrite Hlog. right. by left.
      - apply Forall_forall. intros x Hx. apply elem_of_app. right. rewrite Hlog. right. by right.
      - congruence. }
    destruct (Ho k e Hin) as (v' & Hv' & He').
    pose proof (dec_enc _ _ Hcodec v e Hev). pose proof (dec_enc _ _ Hcodec v' e He'). congruence.
  Qed.
  Theorem proof_agrees st lg us r ps D k (B' : backend n) (st' : b_st B') :
    uhist st lg us → no_collision H lg → (r, ps) ∈ us →
    match out B H (get_one dec D r k) st with
    | ROk (Some v) => ∃ p, out B H (generate_inclusion_proof D r k) st = ROk p ∧
                         out B' H (verify_inclusion_proof enc r k v p) st' = ROk tt
    | ROk None => out B H (generate_inclusion_proof D r k) st = RErr "Key not found in tree"
    | RErr er => out B H (generate_inclusion_proof D r k) st = RErr er
    | _ => False
    end.
  Proof.
    intros Hh Hc Hin. destruct (uhist_owned st lg us r ps lg Hh Hc ltac:(done) Hin) as (t & Hr & Hw & Hst & _ & Hl & _).
    simpl in *. subst r. rewrite (gen_proof_run Hn B H D k t st Hst Hw). unfold out at 1.
    rewrite (get_one_run Hn B H dec D k t st Hst Hw). cbn [fst].
    destruct (D <? tneed t k); [done|]. destruct (tlookup t k) as [e|] eqn:Hk; [|done].
    destruct (Hl k e (tlookup_elem t k e Hk)) as (v & Hv & He).
    rewrite (dec_enc _ _ Hcodec v e He). eexists. split; [done|]. by apply (verify_complete B' H enc t k v e).
  Qed.
End Origin.
