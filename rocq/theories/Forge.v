(** * What one hash collision does
    [no_collision] is a hypothesis of most theorems.  Here: a single second value
    with the same data location is enough to change the contents of roots in use
    and to prove a pair that is not in the tree. *)
From Coq Require Import Strings.Byte NArith.
From stdpp Require Import prelude countable gmap sorting strings.
From Verif Require Import Model Bits Spec Util Trie Store Logic Build Evol Route Reads Insert Update Safe Get
  Hist Claims RefCount RcInsert RcRemove Total Live Regrow Weak Depth Shape Need Codec CodecProofs Fx Scenario.

Local Open Scope nat_scope.

Section Forge.
  Context {n : nat} (Hn : 0 < n) (B : backend n) {HB : BackendOk B} (H : list bytes → arr n).
  Context {V : Type} (enc : V → res bytes) (dec : bytes → res V) (Hcodec : codec_ok enc dec).
  Implicit Types (st : b_st B) (lg L : list (list bytes)) (k : arr n) (e : bytes).
  Implicit Types (M : gmap (arr n) V) (t l : trie n) (m : db n).
  Notation live := (live B H enc dec).

  Lemma live_cle st lg r M : live st lg r M → no_collision H lg → cle (b_vis B st) (bview st).
  Proof using Hn Hcodec HB.
    intros (hs & [Hh|Hh] & Hin) Hc.
    - destruct (hist_hinv Hn B H enc dec Hcodec st lg hs lg Hh Hc ltac:(done)) as [(_ & _ & ? & _) _]. done.
    - destruct (whist_inv Hn B H enc dec Hcodec lg st lg hs Hc Hh ltac:(done)) as (hts & D & [_ (_&_&_&_&?) _]). done.
  Qed.

  (** The trie with another value for [k]. *)
  Fixpoint tset t k e : trie n :=
    match t with
    | TLeaf k' e' => TLeaf k' (if decide (k' = k) then e else e')
    | TNode l r => TNode (tset l k e) (tset r k e)
    end.
  Lemma tset_min t k e : tmin (tset t k e) = tmin t.
  Proof. induction t as [|a IHa b IHb]; [done|exact IHa]. Qed.
  Lemma tset_keys t k e : tkeys (tset t k e) = tkeys t.
  Proof. induction t as [|l IHl r IHr]; [done|]. cbn [tset]. by rewrite !tkeys_node, IHl, IHr. Qed.
  Lemma tset_size t k e : tsize (tset t k e) = tsize t.
  Proof. induction t as [|l IHl r IHr]; [done|]. cbn [tset tsize]. by rewrite IHl, IHr. Qed.
  Lemma tset_split (l r : trie n) k e : tsplit (tset l k e) (tset r k e) = tsplit l r.
  Proof. unfold tsplit. by rewrite !tset_min. Qed.
  Lemma tset_tpwf t k e : tpwf t → tpwf (tset t k e).
  Proof. induction t as [|l IHl r IHr]; [done|]. cbn [tset tpwf]. rewrite !tset_min. intros (?&?&?). auto. Qed.
  Lemma tset_need t k e q : tneed (tset t k e) q = tneed t q.
  Proof. induction t as [k' e'|l IHl r IHr]; [done|]. cbn [tset tneed]. by rewrite tset_split, tset_min, IHl, IHr. Qed.
  Lemma tset_lookup t k e q : tlookup (tset t k e) q = (λ e', if decide (q = k) then e else e') <$> tlookup t q.
  Proof.
    induction t as [k' e'|l IHl r IHr]; cbn [tset tlookup].
    - destruct (decide (k' = q)) as [->|]; [|done]. done.
    - rewrite tset_split, tset_min. destruct (decide (tsplit l r ≤ klcp q (tmin l))); [|done]. by destruct (bit _ _).
  Qed.
  Lemma tset_root t k e : (∀ e', (k, e') ∈ tleaves t → dloc H k e' = dloc H k e) → troot H (tset t k e) = troot H t.
  Proof.
    induction t as [k' e'|l IHl r IHr]; intros Hd; cbn [tset troot].
    - destruct (decide (k' = k)) as [->|]; [|done]. unfold lloc. rewrite (Hd e'); [done|by left].
    - rewrite IHl, IHr; [done| |]; intros e' He'; apply Hd; cbn [tleaves]; apply elem_of_app; auto.
  Qed.

  (** The database [m], whose data node of [(k, e0)] now has the content [e]. *)
  Lemma tset_stored L m m' t k e e0 : no_collision H L → Forall (λ x, x ∈ L) (tpre H t) → data_in k e0 ∈ L →
    (∀ e', (k, e') ∈ tleaves t → e' = e0) → dloc H k e0 = dloc H k e →
    (∀ lc va, has m lc va → lc ≠ dloc H k e → has m' lc va) → has m' (dloc H k e) (VData e) →
    stored H m t → stored H m' (tset t k e).
  Proof.
    intros Hc. induction t as [k' e'|l IHl r IHr]; intros Hpre H0 Hk He Hm Hd Hst.
    - apply Forall_cons in Hpre as [Hp1 Hpre]. apply Forall_cons in Hpre as [Hp2 _]. destruct Hst as [Hl Hdt].
      assert (lloc H k' e' ≠ dloc H k e) as Hne.
      { rewrite <- He. intros Heq. specialize (Hc _ _ Hp2 H0 Heq). done. }
      cbn [tset]. destruct (decide (k' = k)) as [->|Hkk].
      + rewrite (Hk e') in * by (by left). split; [|done].
        assert (lloc H k e = lloc H k e0) as -> by (unfold lloc; by rewrite He).
        cbn [tvar]. rewrite <- He. by apply Hm.
      + split; [by apply Hm|]. apply Hm; [done|]. rewrite <- He. intros Heq. specialize (Hc _ _ Hp1 H0 Heq).
        apply data_in_inj in Hc as [? _]. done.
    - cbn [tpre] in Hpre. apply Forall_cons in Hpre as [Hp Hpre]. apply Forall_app in Hpre as [Hpl Hpr].
      destruct Hst as (Hb & Hl & Hr). cbn [tleaves] in Hk.
      assert (∀ e', (k, e') ∈ tleaves l → e' = e0) as Hkl by (intros; apply Hk, elem_of_app; auto).
      assert (∀ e', (k, e') ∈ tleaves r → e' = e0) as Hkr by (intros; apply Hk, elem_of_app; auto).
      cbn [tset stored tvar]. split_and!; [|by apply IHl|by apply IHr].
      rewrite tset_split, tset_min, !tset_size. cbn [troot].
      rewrite (tset_root l) by (intros e' He'; by rewrite <- He, (Hkl e')).
      rewrite (tset_root r) by (intros e' He'; by rewrite <- He, (Hkr e')).
      apply Hm; [exact Hb|]. rewrite <- He. intros Heq. specialize (Hc _ _ Hp H0 Heq). done.
  Qed.

  (** What inserting one pair into the empty tree does. *)
  Lemma insert_one_none st D k v e : enc v = Ok e →
    ∃ c1 c2, run B H (insert_one enc D None k v) st =
      (ROk (lloc H k e), b_flush B (b_put B (b_put B st (dloc H k e) (Node c1 (VData e)))
                                      (lloc H k e) (Node c2 (VLeaf k (dloc H k e)))),
       [data_in k e; leaf_in k (dloc H k e)]).
  Proof.
    intros He. do 2 eexists. unfold insert_one, insert_sorted. cbn [insert_leaves insert_leaves_one].
    unfold insert_leaves_one. rewrite lookup_singleton, He.
    cbn [lift mbind prog_bind pbind hash get_node db_insert batch_write mret prog_ret zip_with app create_tree run fst snd tloc].
    done.
  Qed.

  (** One second value is enough: the roots in use serve it, and proofs of the
      first value prove it. *)
  Theorem collision_overwrites st lg r M D k v v' e e' : live st lg r M → no_collision H lg →
    M !! k = Some v → enc v = Ok e → enc v' = Ok e' → H (data_in k e) = H (data_in k e') →
    ∃ r', out B H (insert_one enc D None k v') st = ROk r' ∧
      holds B H dec (fin B H (insert_one enc D None k v') st) r (<[k := v']> M).
  Proof using Hn Hcodec HB.
    intros Hl Hc Hk He He' Heq. pose proof (live_cle st lg r M Hl Hc) as Hcle.
    destruct (live_handle Hn B H enc dec Hcodec st lg r M Hl Hc) as (t & Hr & Hwf & Hst & Hpre & Hen).
    destruct (insert_one_none st D k v' e' He') as (c1 & c2 & Hrun). cbn [fst snd] in *.
    unfold out at 1, fin. rewrite Hrun. cbn [fst snd]. eexists. split; [done|]. intros D' q HD.
    set (st' := b_flush B _).
    assert (∀ ek, (k, ek) ∈ tleaves t → ek = e) as Hkt.
    { intros ek Hin. apply tmap_lookup in Hin; [|done]. specialize (Hen k). rewrite Hk, Hin in Hen.
      inversion Hen; subst. congruence. }
    assert ((k, e) ∈ tleaves t) as Hke.
    { apply tmap_lookup; [done|]. specialize (Hen k). rewrite Hk in Hen. inversion Hen; subst. congruence. }
    assert (data_in k e ∈ lg ∧ leaf_in k (dloc H k e) ∈ lg) as [Hd0 Hl0].
    { clear -Hke Hpre. induction t as [k1 e1|a IHa b IHb]; cbn [tleaves tpre] in *.
      - apply elem_of_list_singleton in Hke as [= -> ->]. apply Forall_cons in Hpre as [? Hpre].
        apply Forall_cons in Hpre as [? _]. done.
      - apply Forall_cons in Hpre as [_ Hpre]. apply Forall_app in Hpre as [? ?].
        apply elem_of_app in Hke as [?|?]; auto. }
    assert (dloc H k e = dloc H k e') as Hdl by done.
    assert (lloc H k e' ≠ dloc H k e') as Hne.
    { unfold lloc. rewrite <- Hdl. intros Hx. specialize (Hc _ _ Hl0 Hd0 Hx). done. }
    assert (b_vis B st' = <[lloc H k e' := Node c2 (VLeaf k (dloc H k e'))]>
              (<[dloc H k e' := Node c1 (VData e')]> (bview st))) as Hvis.
    { unfold st'. by rewrite bvis_flush, !bview_put. }
    assert (stored H (b_vis B st') (tset t k e')) as Hst'.
    { eapply (tset_stored lg (b_vis B st) _ t k e' e); try done.
      - intros lc va Hh Hlc. rewrite Hvis. unfold has. destruct (decide (lc = lloc H k e')) as [->|Hlc'].
        + rewrite lookup_insert. cbn. f_equal. rewrite <- Hdl in *.
          assert (has (b_vis B st) (lloc H k e) (VLeaf k (dloc H k e))) as Hh'.
          { clear -Hke Hst. induction t as [k1 e1|a IHa b IHb]; cbn [tleaves stored] in *.
            - apply elem_of_list_singleton in Hke as [= -> ->]. apply Hst.
            - destruct Hst as (_&?&?). apply elem_of_app in Hke as [?|?]; auto. }
          unfold lloc in *. rewrite <- Hdl in Hh. unfold has in Hh, Hh'. congruence.
        + rewrite !lookup_insert_ne by done. by apply Hcle.
      - rewrite Hvis. unfold has. rewrite lookup_insert_ne by done. by rewrite lookup_insert. }
    assert (troot H (tset t k e') = r) as Hr'.
    { rewrite Hr. apply tset_root. intros ek Hek. by rewrite (Hkt ek Hek). }
    rewrite <- Hr'. unfold out. rewrite (get_one_run Hn) by (auto using tset_tpwf, twf_tpwf). cbn [fst].
    rewrite tset_need, tset_lookup. 
    destruct (Nat.ltb_spec D' (tneed t q)) as [Hlt|_].
    { pose proof (tneed_depth Hn t q). pose proof (twf_depth t Hwf). lia. }
    rewrite tlookup_tmap by done. pose proof (encs_dec enc dec Hcodec M _ q Hen) as Hq.
    destruct (decide (q = k)) as [->|Hqk].
    - rewrite lookup_insert. apply tmap_lookup in Hke; [|done]. rewrite Hke. cbn [fmap option_fmap option_map].
      by rewrite (dec_enc _ _ Hcodec v' e' He').
    - rewrite lookup_insert_ne by done. destruct (tmap t !! q) as [eq|]; cbn [fmap option_fmap option_map]; [|by rewrite Hq].
      destruct Hq as (vq & -> & ->). done.
  Qed.

  Theorem collision_proves (B' : backend n) (st : b_st B') k v v' e e' r proof : enc v = Ok e → enc v' = Ok e' →
    H (data_in k e) = H (data_in k e') →
    out B' H (verify_inclusion_proof enc r k v' proof) st = out B' H (verify_inclusion_proof enc r k v proof) st.
  Proof using.
    intros He He' Heq. unfold verify_inclusion_proof. destruct proof as [|p0 [|p1 items]]; [done|done|].
    rewrite He, He'. cbn [lift mbind prog_bind pbind hash]. unfold out. cbn [run]. rewrite Heq.
    by destruct (run _ _ _ _) as [[? ?] ?].
  Qed.

  Theorem one_collision st lg r M D k v v' e e' : live st lg r M → no_collision H lg →
    M !! k = Some v → enc v = Ok e → enc v' = Ok e' → H (data_in k e) = H (data_in k e') →
    (∃ r', out B H (insert_one enc D None k v') st = ROk r' ∧
      holds B H dec (fin B H (insert_one enc D None k v') st) r (<[k := v']> M)) ∧
    (∀ (B' : backend n) (st' : b_st B') proof,
      out B' H (verify_inclusion_proof enc r k v' proof) st' = out B' H (verify_inclusion_proof enc r k v proof) st').
  Proof using Hn Hcodec HB.
    intros Hl Hc Hk He He' Heq. split; [by eapply collision_overwrites|]. intros. by eapply collision_proves.
  Qed.
End Forge.

(** ** FxHash *)
Lemma fx_second_value n (k : arr n) (v : bytes) : 16 ≤ length v →
  ∃ v', v' ≠ v ∧ length v' = length v ∧ fx n (data_in k v') = fx n (data_in k v).
Proof.
  intros Hv. set (h := foldl (λ h b, fx_write (S (length b)) h b) 0%N [[x64]; (k : bytes)]).
  set (w := (N.lxor (word_of (take 8 v)) 1)%N).
  assert (w < 2 ^ 64)%N as Hw by (apply (lxor_lt _ _ 64); [apply word8_lt; lia|done]).
  exists (fx_forge h w v). split_and!.
  - apply fx_forge_ne; [done|done|]. unfold w. intros Hx.
    assert (N.lxor (N.lxor (word_of (take 8 v)) 1) (word_of (take 8 v)) = 0%N) as Hz by (rewrite Hx; apply N.lxor_nilpotent).
    rewrite (N.lxor_comm (word_of (take 8 v)) 1), N.lxor_assoc, N.lxor_nilpotent, N.lxor_0_r in Hz. done.
  - by apply fx_forge_length.
  - unfold fx. assert (fx_digest (data_in k (fx_forge h w v)) = fx_digest (data_in k v)) as ->; [|done].
    unfold data_in, fx_digest. cbn [foldl]. exact (fx_forge_same h w v Hv Hw).
Qed.

Lemma fx_overwrites n (Hn : 0 < n) (B : backend n) {HB : BackendOk B} (k : arr n) (v : bytes) : 16 ≤ length v →
  ∃ v', v' ≠ v ∧ length v' = length v ∧
  (∀ st lg r M D, live B (fx n) idc idc st lg r M → no_collision (fx n) lg → M !! k = Some v →
     ∃ r', out B (fx n) (insert_one idc D None k v') st = ROk r' ∧
       holds B (fx n) idc (fin B (fx n) (insert_one idc D None k v') st) r (<[k := v']> M)) ∧
  (∀ (B' : backend n) (st' : b_st B') r proof,
     out B' (fx n) (verify_inclusion_proof idc r k v' proof) st' = out B' (fx n) (verify_inclusion_proof idc r k v proof) st').
Proof.
  intros Hv. destruct (fx_second_value n k v Hv) as (v' & Hne & Hl & Heq). exists v'. split; [done|]. split; [done|]. split.
  - intros st lg r M D Hlive Hc Hk.
    exact (collision_overwrites Hn B (fx n) idc idc idc_ok st lg r M D k v v' v v' Hlive Hc Hk eq_refl eq_refl (eq_sym Heq)).
  - intros B' st' r proof. exact (collision_proves (fx n) idc B' st' k v v' v v' r proof eq_refl eq_refl (eq_sym Heq)).
Qed.
