(** * The tree that an insertion produces *)
From Coq Require Import Strings.Byte NArith.
From stdpp Require Import prelude countable gmap sorting strings.
From Verif Require Import Model Bits Spec Util Trie Store Logic Build Evol Route Insert.

Local Open Scope nat_scope.

Section Update.
  Context {n : nat}.
  Implicit Types (t : trie n) (ts : list (trie n)) (k : arr n) (e : bytes) (ks : list (arr n)).
  Implicit Types (old : option (trie n)) (M : gmap (arr n) bytes).

  (** ** Hazards *)
  Lemma hazard_ext (P Q : arr n → Prop) ks : (∀ k, P k ↔ Q k) → hazard P ks → hazard Q ks.
  Proof.
    intros He (a & b & x & y & Ha & Hb & Hne & Hx & Hy & Hz). exists a, b, x, y.
    cbv zeta in *. destruct Hz as (?&?&?&?&Hc).
    split_and!; try done; try (by apply He). intros c Hcc. apply Hc. by apply He.
  Qed.
  Lemma hazard_single (P : arr n → Prop) k : ¬ hazard P [k].
  Proof.
    intros (a & b & x & y & _ & _ & _ & Hx%elem_of_list_singleton & Hy%elem_of_list_singleton & Hz).
    subst. cbv zeta in Hz. lia.
  Qed.
  (** A batch of keys that are all present is benign. *)
  Lemma hazard_present (P : arr n → Prop) ks : (∀ k, k ∈ ks → P k) → ¬ hazard P ks.
  Proof.
    intros Hin (a & b & x & y & _ & _ & _ & Hx & Hy & Hz). cbv zeta in Hz.
    destruct Hz as (H1 & H2 & H3 & _ & Hc). apply (Hc y (Hin y Hy)). lia.
  Qed.
  (** A tree of at most one key is benign. *)
  Lemma hazard_small (P : arr n → Prop) ks : (∀ a b, P a → P b → a = b) → ¬ hazard P ks.
  Proof. intros Hs (a & b & x & y & Ha & Hb & Hne & _). by apply Hne, Hs. Qed.

  Definition omap old : gmap (arr n) bytes := match old with Some t => tmap t | None => ∅ end.
  Definition owf old : Prop := match old with Some t => twf t | None => True end.

  Lemma tmap_has t k : has_key (tmap t) k ↔ k ∈ tkeys t.
  Proof.
    unfold has_key. rewrite <- not_eq_None_Some, tmap_lookup_None.
    split; [intros ?; by apply dec_stable|by intros ? ?].
  Qed.

  Lemma clean_old t ks : twf t → ksorted ks → ¬ hazard (has_key (tmap t)) ks →
    clean (λ k, k ∈ tkeys t) ks t ks.
  Proof.
    intros Hwf Hs Hh. apply clean_root; [done|done|]. intros Hz. apply Hh.
    eapply hazard_ext; [|exact Hz]. intros k. by rewrite tmap_has.
  Qed.

  Lemma mjoin_keys_unique (l : list (trie n)) p q k :
    NoDup (mjoin (tkeys <$> l)) → p ∈ l → q ∈ l → k ∈ tkeys p → k ∈ tkeys q → p = q.
  Proof.
    induction l as [|t l IH]; [by intros _ ?%elem_of_nil|]. cbn. intros Hnd Hp Hq Hkp Hkq.
    apply NoDup_app in Hnd as (_ & Hdis & Hnd).
    assert (∀ u, u ∈ l → k ∈ tkeys u → k ∈ mjoin (tkeys <$> l)) as Haux.
    { intros u Hu Hk. apply elem_of_list_join. exists (tkeys u). split; [done|].
      apply elem_of_list_fmap. eauto. }
    apply elem_of_cons in Hp as [->|Hp], Hq as [->|Hq]; [done| | |by eapply IH].
    - exfalso. by eapply Hdis, Haux.
    - exfalso. by eapply Hdis, Haux.
  Qed.
  Lemma mjoin_keys_leaves (l : list (trie n)) : mjoin (tkeys <$> l) = (mjoin (tleaves <$> l)).*1.
  Proof.
    induction l as [|t l IH]; [done|].
    change (tkeys t ++ mjoin (tkeys <$> l) = (tleaves t ++ mjoin (tleaves <$> l)).*1).
    by rewrite IH, fmap_app.
  Qed.

  Lemma nodup_filter_fst {A C} (P : A * C → Prop) `{∀ x, Decision (P x)} (l : list (A * C)) :
    NoDup l.*1 → NoDup (filter P l).*1.
  Proof.
    induction l as [|x l IH]; [done|]. rewrite fmap_cons, NoDup_cons. intros [Hni Hnd].
    rewrite filter_cons. destruct (decide (P x)); [|auto].
    rewrite fmap_cons, NoDup_cons. split; [|auto].
    intros (y & Hy & [_ Hin]%elem_of_list_filter)%elem_of_list_fmap. apply Hni.
    apply elem_of_list_fmap. eauto.
  Qed.

  (** ** Misleading batches *)
  Lemma misled_ext (P P' Q Q' : arr n → Prop) ks : (∀ k, P k ↔ P' k) → (∀ k, Q k → Q' k) →
    misled P Q ks → misled P' Q' ks.
  Proof.
    intros HP HQ (a & b & x & y & d & Ha & Hb & Hne & Hx & Hy & Hd & Hq & Hz). exists a, b, x, y, d.
    split_and!; auto; by apply HP.
  Qed.
  Lemma tidy_old Q t ks : twf t → ksorted ks → ¬ misled (has_key (tmap t)) Q ks →
    tidy (λ k, k ∈ tkeys t) Q ks t ks.
  Proof.
    intros Hwf Hs Hh. apply tidy_root; [done|done|]. intros Hz. apply Hh.
    eapply misled_ext; [|by intros ?|exact Hz]. intros k. by rewrite tmap_has.
  Qed.
  (** The pieces kept by an insertion of a mild batch. *)
  Lemma wdec_leaves_mild t ks : 0 < n → twf t → ksorted ks → ks ≠ [] → mild (tmap t) ks →
    mjoin (tleaves <$> wdec (λ k, bool_decide (k ∈ ks)) t ks) = filter (λ p, p.1 ∉ ks) (tleaves t).
  Proof.
    intros Hn Hwf Hs Hne [Hh|Hh].
    - eapply wdec_leaves; [done|by apply clean_old|done|by intros ? ? ?].
    - eapply wdec_leaves_tidy; [done|by apply tidy_old|by intros ? ? ?].
  Qed.
  Lemma wdec_apart_mild t ks p z : 0 < n → twf t → ksorted ks → ks ≠ [] → mild (tmap t) ks →
    p ∈ wdec (λ k, bool_decide (k ∈ ks)) t ks → z ∈ ks → apart p z.
  Proof.
    intros Hn Hwf Hs Hne [Hh|Hh].
    - eapply wdec_apart; [done|by apply clean_old|done|by intros ? ? ?].
    - eapply wdec_apart_tidy; [done|by apply tidy_old|by intros ? ? ?].
  Qed.
  (** The leaves visited by a mild read. *)
  Lemma wget_mild t ks k e : 0 < n → twf t → ksorted ks → mild_get (tmap t) ks → k ∈ ks →
    (k, e) ∈ tleaves t → (k, e) ∈ wget t ks.
  Proof.
    intros Hn Hwf Hs [Hh|Hh] Hk Hin.
    - eapply wget_clean; [done|by apply clean_old|done|done].
    - eapply wget_tidy; [done|by apply tidy_old|done| |done].
      apply tmap_has, elem_of_tkeys. eauto.
  Qed.

  Section Result.
    Context (Hn : 0 < n).

    Lemma olddec_leaves old ks k e : owf old → ksorted ks → ks ≠ [] → mild (omap old) ks →
      (∃ p, p ∈ olddec old ks ∧ (k, e) ∈ tleaves p) ↔ omap old !! k = Some e ∧ k ∉ ks.
    Proof.
      intros Hwf Hs Hne Hh. destruct old as [t|]; simpl in *.
      - pose proof (wdec_leaves_mild t ks Hn Hwf Hs Hne Hh) as Hlv.
        rewrite tmap_lookup by done.
        transitivity ((k, e) ∈ mjoin (tleaves <$> wdec (λ k, bool_decide (k ∈ ks)) t ks)).
        { rewrite elem_of_list_join. setoid_rewrite elem_of_list_fmap.
          split; [intros (p & ? & ?); exists (tleaves p); eauto|intros (? & ? & p & -> & ?); eauto]. }
        rewrite Hlv, elem_of_list_filter. simpl. tauto.
      - split; [by intros (p & ?%elem_of_nil & _)|by intros [? _]].
    Qed.
    (** Without the hazard condition: nothing but old entries survives. *)
    Lemma olddec_leaves_old old ks p k e : p ∈ olddec old ks → (k, e) ∈ tleaves p → 
      ∃ t, old = Some t ∧ (k, e) ∈ tleaves t.
    Proof.
      destruct old as [t|]; simpl; [|by intros ?%elem_of_nil].
      intros Hp%wdec_sub Hin. exists t. split; [done|]. by eapply subtrie_leaves.
    Qed.
    Lemma olddec_nodup old ks : owf old → ksorted ks → ks ≠ [] → mild (omap old) ks →
      NoDup (mjoin (tkeys <$> olddec old ks)).
    Proof.
      intros Hwf Hs Hne Hh. destruct old as [t|]; simpl in *; [|constructor].
      rewrite mjoin_keys_leaves, (wdec_leaves_mild t ks Hn Hwf Hs Hne Hh).
      pose proof (twf_nodup t Hwf) as Hnd. unfold tkeys in Hnd.
      by apply nodup_filter_fst.
    Qed.

    Context (ks : list (arr n)) (es : list bytes) (old : option (trie n)).
    Context (Hlen : length ks = length es) (Hs : ksorted ks) (Hne : ks ≠ []).

    Lemma new_tmins : tmin <$> new_tries ks es = ks.
    Proof.
      clear Hs Hne. revert es Hlen. induction ks as [|k ks' IH]; intros [|e es'] Hl; try done.
      cbn. f_equal. apply IH. by injection Hl.
    Qed.
    Lemma new_leaves : mjoin (tleaves <$> new_tries ks es) = zip ks es.
    Proof.
      clear Hs Hne. revert es Hlen. induction ks as [|k ks' IH]; intros [|e es'] Hl; try done.
      cbn. f_equal. apply IH. by injection Hl.
    Qed.
    Lemma zip_fst : (zip ks es).*1 = ks.
    Proof. apply fst_zip. lia. Qed.

    Section T.
      Context (t : trie n) (ts : list (trie n)).
      Context (Hts : ts ≡ₚ new_tries ks es ++ olddec old ks).
      Context (Hsorted : StronglySorted klt (tmin <$> ts)).
      Context (Hleaves : tleaves t = mjoin (tleaves <$> ts)).

      Lemma result_elem k e : (k, e) ∈ tleaves t ↔
        (k, e) ∈ zip ks es ∨ ∃ p, p ∈ olddec old ks ∧ (k, e) ∈ tleaves p.
      Proof using Hts Hleaves Hlen.
        rewrite Hleaves.
        assert (∀ l, (k, e) ∈ mjoin (tleaves <$> l) ↔ ∃ p, p ∈ l ∧ (k, e) ∈ tleaves p) as Hj.
        { intros l. rewrite elem_of_list_join. setoid_rewrite elem_of_list_fmap.
          split; [intros (? & ? & p & -> & ?); eauto|intros (p & ? & ?); exists (tleaves p); eauto]. }
        rewrite Hj, <- new_leaves, Hj. setoid_rewrite Hts. setoid_rewrite elem_of_app. naive_solver.
      Qed.
      Lemma result_nodup : NoDup (ks ++ (tmin <$> olddec old ks)).
      Proof using Hts Hsorted Hlen.
        apply klt_sorted_nodup in Hsorted. rewrite Hts, fmap_app, new_tmins in Hsorted. done.
      Qed.

      Context (Hwf : owf old) (Hh : mild (omap old) ks).
      Lemma result_good : bgood ts.
      Proof using Hts Hsorted Hwf Hh Hlen Hs Hne Hn.
        apply bgood_apart; [done| |].
        - rewrite Hts. apply Forall_app. split.
          + apply Forall_forall. intros p (k & e & -> & _)%elem_of_new_tries; [done|done].
          + apply Forall_forall. intros p Hp. destruct old as [t0|]; [|by apply elem_of_nil in Hp].
            apply wdec_sub in Hp. by eapply subtrie_twf.
        - intros p q Hp Hq Hpq. rewrite Hts in Hp, Hq.
          apply elem_of_app in Hp as [Hp|Hp].
          { apply elem_of_new_tries in Hp as (k & e & -> & _); done. }
          destruct old as [t0|] eqn:Ho; [|by apply elem_of_nil in Hp].
          simpl in Hwf, Hh.
          apply elem_of_app in Hq as [Hq|Hq].
          + apply elem_of_new_tries in Hq as (k & e & -> & Hin); [|done]. simpl.
            eapply wdec_apart_mild; [done|exact Hwf|done|done|done|exact Hp|].
            rewrite <- zip_fst. apply elem_of_list_fmap. by exists (k, e).
          + eapply sub_apart; [exact Hwf|by eapply wdec_sub| |].
            * eapply subtrie_keys; [by eapply wdec_sub|]. apply tmin_in.
            * intros Hin. apply Hpq. f_equal.
              eapply (mjoin_keys_unique (olddec (Some t0) ks)); [|exact Hp|exact Hq|exact Hin|apply tmin_in].
              by apply olddec_nodup.
      Qed.
      Lemma result_map : twf t → tmap t = list_to_map (zip ks es) ∪ omap old.
      Proof using Hts Hsorted Hleaves Hwf Hh Hlen Hs Hne Hn.
        intros Ht. pose proof result_nodup as Hnd. apply NoDup_app in Hnd as (Hnd & _ & _).
        apply map_eq. intros k. apply option_eq. intros e.
        rewrite tmap_lookup, result_elem, olddec_leaves by done.
        rewrite lookup_union_Some_raw.
        rewrite <- elem_of_list_to_map by (by rewrite zip_fst).
        rewrite <- not_elem_of_list_to_map, zip_fst. tauto.
      Qed.
    End T.

    Lemma mild_nodup : NoDup ks → owf old → mild (omap old) ks →
      NoDup (ks ++ (tmin <$> olddec old ks)).
    Proof using Hs Hne Hn.
      intros Hnd Hwf Hh. apply NoDup_app. split_and!; [done| |].
      - intros k Hk (p & -> & Hp)%elem_of_list_fmap.
        destruct (tleaves_head p) as (e & ls & Hl).
        apply (olddec_leaves old ks (tmin p) e Hwf Hs Hne Hh); [|done].
        exists p. split; [done|]. rewrite Hl. by left.
      - pose proof (olddec_nodup old ks Hwf Hs Hne Hh) as Hd. clear -Hd.
        induction (olddec old ks) as [|p l IH]; [constructor|]. cbn in *.
        apply NoDup_app in Hd as (_ & Hdis & Hd). constructor; [|auto].
        intros (q & Hpq & Hq)%elem_of_list_fmap. apply (Hdis (tmin p) (tmin_in p)).
        apply elem_of_list_join. exists (tkeys q). rewrite Hpq. split; [apply tmin_in|].
        apply elem_of_list_fmap. eauto.
    Qed.
  End Result.
End Update.
