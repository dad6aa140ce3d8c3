(** * Removing a location that is not a live root *)
From Coq Require Import Strings.Byte NArith.
From stdpp Require Import prelude countable gmap sorting strings.
From Verif Require Import Model Bits Spec Util Trie Store Logic Build Evol Route Reads Insert Update Safe Get
  Hist Claims RefCount RcInsert RcRemove Total Live Regrow Weak Exact.

Local Open Scope nat_scope.

Section Stray.
  Context {n : nat} (Hn : 0 < n) (B : backend n) {HB : BackendOk B} (H : list bytes → arr n).
  Context {V : Type} (enc : V → res bytes) (dec : bytes → res V) (Hcodec : codec_ok enc dec).
  Implicit Types (st s : b_st B) (lg L : list (list bytes)) (k r : arr n) (ks : list (arr n)) (vs : list V).
  Implicit Types (M : gmap (arr n) V) (hs : list (arr n * gmap (arr n) V)) (t b l : trie n).
  Notation Sof L := (λ x, x ∈ L).

  Lemma get_missing_data D L fuel d k e t s v : inj_on H (Sof L) → shallow H (Sof L) (b_vis B s) →
    Forall (Sof L) (tpre H t) → twf t → subtrie (TLeaf k e) t → b_vis B s !! dloc H k e = None →
    out B H (get_one_loop dec D fuel k d false (troot H t)) s ≠ ROk (Some v).
  Proof using Hn.
    intros Hinj Hs. revert d t. unfold out. induction fuel as [|fuel IH]; intros d t Hpre Hwf Hb Hno; [done|].
    cbn [get_one_loop]. destruct (D <? d); [done|].
    cbn [mbind prog_bind pbind get_node run].
    destruct (b_vis B s !! troot H t) as [nd|] eqn:Ht; [|done].
    destruct (shallow_at H (Sof L) Hinj _ (OT t) nd Hs Hpre Ht) as [Hv _].
    assert (∀ t, subtrie (TLeaf k e) t → k ∈ tkeys t) as Hkey.
    { intros t' Ht'. eapply subtrie_keys; [exact Ht'|]. by left. }
    inversion Hb as [|? l r Hb'|? l r Hb']; subst.
    - cbn [ovar tvar] in Hv. rewrite Hv. rewrite decide_True by done.
      destruct fuel; [done|]. cbn [get_one_loop]. destruct (D <? d + 1); [done|].
      cbn [mbind prog_bind pbind get_node run]. by rewrite Hno.
    - cbn [ovar tvar] in Hv. rewrite Hv. pose proof Hwf as (Hwl & Hwr & Hlt & _).
      pose proof (tsplit_lt l r Hlt) as Hs8.
      destruct (single_desc Hn k (tmin l) (tsplit l r)) as (m & Hm & Hc); [lia|].
      rewrite Hm. cbn [lift mbind prog_bind pbind]. rewrite Hc. cbn [lift mbind prog_bind pbind].
      destruct (decide _); [|done]. rewrite choose_zero_ok by done. cbn [lift mbind prog_bind pbind].
      rewrite (proj1 (twf_side l r k Hwf)) by auto. cbn [negb].
      apply IH; try done. cbn [tpre] in Hpre. by apply Forall_cons in Hpre as [_ [? _]%Forall_app].
    - cbn [ovar tvar] in Hv. rewrite Hv. pose proof Hwf as (Hwl & Hwr & Hlt & _).
      pose proof (tsplit_lt l r Hlt) as Hs8.
      destruct (single_desc Hn k (tmin l) (tsplit l r)) as (m & Hm & Hc); [lia|].
      rewrite Hm. cbn [lift mbind prog_bind pbind]. rewrite Hc. cbn [lift mbind prog_bind pbind].
      destruct (decide _); [|done]. rewrite choose_zero_ok by done. cbn [lift mbind prog_bind pbind].
      rewrite (proj2 (twf_side l r k Hwf)) by auto. cbn [negb].
      apply IH; try done. cbn [tpre] in Hpre. by apply Forall_cons in Hpre as [_ [_ ?]%Forall_app].
  Qed.

  (** A location that is absent, or that more than one reference keeps. *)
  Theorem stray_harmless st lg hs r : rhist B H enc dec st lg hs → no_collision H lg →
    (∀ nd, b_vis B st !! r = Some nd → refs nd ≠ 1) →
    ∀ r' M', (r', M') ∈ hs → serves B H enc dec (fin B H (remove_prog B st r) st) r' M'.
  Proof.
    intros Hh Hc Hne r' M' Hin.
    destruct (rhist_inv Hn B H enc dec Hcodec lg st lg hs Hc Hh ltac:(done)) as [hts Hi].
    pose proof (linv_hinv B H enc True lg st hs hts Hc Hi) as [_ Hhs]. rewrite Forall_forall in Hhs.
    apply (handle_serves Hn B H enc dec Hcodec lg).
    apply (handle_mono H enc lg (b_vis B st)); [|by apply Hhs].
    destruct (b_vis B st !! r) as [nd|] eqn:Hr.
    - assert (1 < refs nd) as Hgt.
      { destruct (linv_rc _ _ _ _ _ _ _ _ Hi) as (_ & _ & Hcnt). destruct (Hcnt r nd Hr) as [_ Hx].
        destruct (Hx I) as [_ Hp]. specialize (Hne nd eq_refl). lia. }
      unfold fin, remove_prog, remove. replace (3 * size (b_vis B st) + 2) with (S (S (3 * size (b_vis B st)))) by lia.
      cbn [remove_loop get_node mbind prog_bind pbind run].
      rewrite Hr. destruct (Nat.eqb_spec (refs nd - 1) 0); [lia|].
      cbn [db_insert mbind prog_bind pbind run batch_write]. cbn [fst snd]. rewrite bvis_flush, bview_put.
      rewrite <- (linv_view _ _ _ _ _ _ _ _ Hi). intros l v Hl. unfold has in *.
      destruct (decide (l = r)) as [->|]; [|by rewrite lookup_insert_ne].
      rewrite lookup_insert. rewrite Hr in Hl. done.
    - destruct (remove_total B H st r) as (_ & _ & _ & Hfl). rewrite (Hfl Hr), bvis_flush.
      rewrite <- (linv_view _ _ _ _ _ _ _ _ Hi). apply cle_refl.
  Qed.
  Theorem stray_damage st lg hs r nd : rhist B H enc dec st lg hs → no_collision H lg →
    b_vis B st !! r = Some nd → refs nd = 1 →
    ∃ r' M' k v, (r', M') ∈ hs ∧ M' !! k = Some v ∧
      ∀ D, out B H (get_one dec D r' k) (fin B H (remove_prog B st r) st) ≠ ROk (Some v).
  Proof.
    intros Hh Hc Hr Hone.
    destruct (rhist_inv Hn B H enc dec Hcodec lg st lg hs Hc Hh ltac:(done)) as [hts Hi].
    pose proof (linv_proper _ _ _ _ _ _ _ _ Hi) as Hp.
    destruct (Hp _ _ Hr) as (o & Ho & _ & Hloc & Hv & _). subst r.
    destruct (alive H (Sof lg) Hc True _ hts I Hp (linv_rc _ _ _ _ _ _ _ _ Hi)
      (linv_pre _ _ _ _ _ _ _ _ Hi) o Ho ltac:(eauto)) as (t & Ht & Hsub).
    pose proof (linv_stored _ _ _ _ _ _ _ _ t Hc Hi Ht) as Hst.
    apply elem_of_list_lookup in Ht as [i Ht].
    destruct (Forall2_lookup_r _ _ _ _ _ (linv_trees _ _ _ _ _ _ _ _ Hi) Ht) as ([r' M'] & Hin & (Hr' & Hwf & Hpre & He)).
    cbn [fst snd] in *. subst r'. apply elem_of_list_lookup_2 in Hin.
    assert (∀ k, k ∈ tkeys t → ∃ v, M' !! k = Some v) as Hval.
    { intros k Hk. apply (encs_has enc M' (tmap t) k He). by apply tmap_has. }
    assert (shallow H (Sof lg) (b_vis B st)) as Hsh by (by eapply proper_shallow).
    pose proof (linv_view _ _ _ _ _ _ _ _ Hi) as Hvv. pose proof (linv_pend _ _ _ _ _ _ _ _ Hi) as Hpd.
    destruct o as [b|k e]; cbn [oloc ovar osub] in *.
    - destruct (Hval (tmin b)) as [v Hvk]; [eapply subtrie_keys; [exact Hsub|apply tmin_in]|].
      exists (troot H t), M', (tmin b), v. split_and!; [done|done|]. intros D. unfold get_one.
      pose proof (kill H (Sof lg) Hc B b b st (λ _ _, False) Hsh Hvv Hpd) as Hk.
      specialize (Hk ltac:(by eapply subtrie_stored) Ho ltac:(apply twf_nodup; by eapply subtrie_twf) ltac:(constructor)).
      assert (∀ w, subtrie b w → subtrie w b → b_vis B st !! troot H w = Some (Node 1 (tvar H w))) as Hpath.
      { intros w Hbw Hwb. assert (w = b) as ->; [|destruct nd; cbn in *; congruence].
        destruct Hbw as [|? l r Hbw|? l r Hbw]; [done| |]; exfalso;
          apply subtrie_size in Hbw, Hwb; cbn in *; pose proof (tsize_pos l); pose proof (tsize_pos r); lia. }
      specialize (Hk Hpath). apply wp_run in Hk;
        [|unfold remove_prog, remove; rewrite remove_no_hash; by intros x ?%elem_of_nil].
      destruct (out B H (remove_prog B st (troot H b)) st); try done.
      destruct Hk as [Hsh2 Hgone].
      apply (get_missing Hn B H (Sof lg) Hc dec D _ _ (tmin b) t b); try done. apply tmin_in.
    - destruct (Hval k) as [v Hvk]; [eapply subtrie_keys; [exact Hsub|by left]|].
      exists (troot H t), M', k, v. split_and!; [done|done|]. intros D. unfold get_one.
      assert (b_vis B (fin B H (remove_prog B st (dloc H k e)) st) = delete (dloc H k e) (b_vis B st)) as Hvis.
      { unfold fin, remove_prog, remove. replace (3 * size (b_vis B st) + 2) with (S (S (3 * size (b_vis B st)))) by lia.
        cbn [remove_loop get_node mbind prog_bind pbind run]. rewrite Hr.
        destruct (Nat.eqb_spec (refs nd - 1) 0); [|lia]. rewrite <- Hv.
        cbn [db_remove mbind prog_bind pbind run remove_loop batch_write fst snd].
        rewrite bvis_flush, bview_del by (rewrite Hpd; apply not_elem_of_nil). by rewrite <- Hvv. }
      apply (get_missing_data D lg _ _ k e t); try done.
      + rewrite Hvis. by apply shallow_delete.
      + rewrite Hvis. apply lookup_delete.
  Qed.

  Lemma not_read st r M k v : (∀ D, out B H (get_one dec D r k) st ≠ ROk (Some v)) → M !! k = Some v →
    ¬ holds B H dec st r M.
  Proof using.
    intros Hno HM Hh. apply (Hno (8 * n + 1)). rewrite <- HM. by apply Hh.
  Qed.
  Theorem stray_exact st lg hs r : rhist B H enc dec st lg hs → no_collision H lg →
    (∀ r' M', (r', M') ∈ hs → holds B H dec (fin B H (remove_prog B st r) st) r' M') ↔
    (∀ nd, b_vis B st !! r = Some nd → refs nd ≠ 1).
  Proof.
    intros Hh Hc. split.
    - intros Hall nd Hr Hone. destruct (stray_damage st lg hs r nd Hh Hc Hr Hone) as (r' & M' & k & v & Hin & HM & Hno).
      eapply not_read; eauto.
    - intros Hne r' M' Hin. by apply (stray_harmless st lg hs r Hh Hc Hne r' M' Hin).
  Qed.
  Theorem remove_twice_exact st lg hs r M hs' : rhist B H enc dec st lg hs → no_collision H lg →
    hs ≡ₚ (r, M) :: hs' →
    let st1 := fin B H (remove_prog B st r) st in
    let st2 := fin B H (remove_prog B st1 r) st1 in
    (∀ r' M', (r', M') ∈ hs' → holds B H dec st2 r' M') ↔ (∀ nd, b_vis B st1 !! r = Some nd → refs nd ≠ 1).
  Proof.
    intros Hh Hc Hp st1 st2. apply (stray_exact st1 lg hs' r); [|done]. by eapply rhist_remove.
  Qed.
End Stray.
