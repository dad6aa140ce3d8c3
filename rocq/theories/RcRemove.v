(** * Removal of a root *)
From Coq Require Import Strings.Byte NArith.
From stdpp Require Import prelude countable gmap sorting strings.
From Verif Require Import Model Bits Spec Util Trie Store Logic Build Evol Route RefCount.

Local Open Scope nat_scope.

Section Ext.
  Context {n : nat}.
  Implicit Types (m : db n) (X : list (arr n)).
  (** Same contents, possibly different counts. *)
  Definition ceq m m' : Prop := ∀ l, var <$> m !! l = var <$> m' !! l.
  Lemma pointers_ext m m' x : ceq m m' → pointers m x = pointers m' x.
  Proof.
    revert m'. induction m as [|l nd m Hl IH] using map_ind; intros m' Hc.
    - assert (m' = ∅) as ->; [|done]. apply map_empty. intros l. specialize (Hc l).
      rewrite lookup_empty in Hc. by destruct (m' !! l).
    - rewrite pointers_insert by done. pose proof (Hc l) as Hcl. rewrite lookup_insert in Hcl.
      destruct (m' !! l) as [nd'|] eqn:Hl'; [|done]. injection Hcl as Hv.
      rewrite (pointers_delete m' l nd') by done. rewrite Hv. f_equal. apply IH.
      intros l'. destruct (decide (l' = l)) as [->|].
      + by rewrite lookup_delete, Hl.
      + rewrite lookup_delete_ne by done. rewrite <- (Hc l'). by rewrite lookup_insert_ne.
  Qed.
  Lemma ceq_cle m m' : ceq m m' → cle m m'.
  Proof. intros Hc l v. unfold has. by rewrite (Hc l). Qed.
  Lemma ceq_sym m m' : ceq m m' → ceq m' m.
  Proof. by intros Hc l. Qed.
  Lemma ceq_some m m' l : ceq m m' → is_Some (m !! l) → is_Some (m' !! l).
  Proof. intros Hc [nd Hl]. specialize (Hc l). rewrite Hl in Hc. destruct (m' !! l); [eauto|done]. Qed.
  Lemma ceq_delete m m' l : ceq m m' → ceq (delete l m) (delete l m').
  Proof.
    intros Hc l'. destruct (decide (l = l')) as [->|]; [by rewrite !lookup_delete|].
    by rewrite !lookup_delete_ne.
  Qed.
  Lemma ceq_insert m m' l nd nd0 : ceq m m' → m' !! l = Some nd0 → var nd = var nd0 →
    ceq m (<[l := nd]> m').
  Proof.
    intros Hc Hl Hv l'. destruct (decide (l = l')) as [->|].
    - rewrite lookup_insert. rewrite (Hc l'), Hl. simpl. by rewrite Hv.
    - by rewrite lookup_insert_ne.
  Qed.

  Lemma RC_over ex m m' X : RC ex m' X → ceq m m' →
    (∀ l nd nd', m !! l = Some nd → m' !! l = Some nd' → refs nd' ≤ refs nd) → RC False m X.
  Proof.
    intros (Hk & HX & Hc) Hceq Hge. split_and!.
    - intros l nd c Hl Hin. pose proof (Hceq l) as Hl'. rewrite Hl in Hl'.
      destruct (m' !! l) as [nd'|] eqn:Hm'; [|done]. injection Hl' as Hv. rewrite Hv in Hin.
      eapply ceq_some; [by apply ceq_sym|]. by eapply Hk.
    - intros x Hx. eapply ceq_some; [by apply ceq_sym|]. auto.
    - intros l nd Hl. pose proof (Hceq l) as Hl'. rewrite Hl in Hl'.
      destruct (m' !! l) as [nd'|] eqn:Hm'; [|done]. rewrite (pointers_ext m m') by done.
      destruct (Hc _ _ Hm') as [Hc1 _]. specialize (Hge _ _ _ Hl Hm'). split; [lia|done].
  Qed.
  Lemma RC_less ex m X Y : RC ex m (X ++ Y) → RC False m X.
  Proof.
    intros (Hk & HX & Hc). split_and!; [done| |].
    - intros x Hx. apply HX, elem_of_app. by left.
    - intros l nd Hl. destruct (Hc _ _ Hl) as [Hc1 _]. rewrite occ_app in Hc1. split; [lia|done].
  Qed.
  Lemma RC_weaken ex m X : RC ex m X → RC False m X.
  Proof. intros HR. apply (RC_less ex m X []). by rewrite app_nil_r. Qed.
End Ext.

Section RcRemove.
  Context {n : nat} (H : list bytes → arr n).
  Context (S : list bytes → Prop) (Hinj : inj_on H S) (ex : Prop).
  Context (B : backend n) {HB : BackendOk B} (X : list (arr n)) (m0 : db n).
  Implicit Types (s : b_st B) (q : list (obj n)) (t : trie n) (o : obj n) (m : db n).

  (** Holds in every state of the removal: nothing new appears, the remaining
      references are all counted. *)
  Definition RJ s : Prop := proper H S (b_vis B s) ∧ RC False (b_vis B s) X ∧ cle (b_vis B s) m0.

  Definition locs q : list (arr n) := oloc H <$> mjoin (oobjs <$> q).
  Record rmi s q : Prop := {
    rmi_rc : RC ex (bview s) (X ++ (oloc H <$> q));
    rmi_proper : proper H S (bview s);
    rmi_ceq : ceq (b_vis B s) (bview s);
    rmi_ge : ∀ l nd nd', b_vis B s !! l = Some nd → bview s !! l = Some nd' → refs nd' ≤ refs nd;
    rmi_cle : cle (bview s) m0;
    rmi_nodup : NoDup (locs q);
    rmi_pend : ∀ l, l ∈ bpend s → l ∉ locs q;
    rmi_pre : Forall (opre_ok H S) q;
  }.
  Lemma rmi_RJ s q : rmi s q → RJ s.
  Proof using Hinj.
    intros Hi. 
    assert (RC False (b_vis B s) (X ++ (oloc H <$> q))) as HR by (eapply RC_over; apply Hi).
    split_and!.
    - apply (shallow_proper H S Hinj); [|by destruct HR].
      intros l nd Hl. pose proof (rmi_ceq _ _ Hi l) as Hc. rewrite Hl in Hc.
      destruct (bview s !! l) as [nd'|] eqn:Hl'; [|done]. injection Hc as Hv. rewrite Hv.
      by apply (proper_shallow H S _ (rmi_proper _ _ Hi)).
    - by eapply RC_less.
    - intros l v Hl. apply (rmi_cle _ _ Hi). by apply (ceq_cle _ _ (rmi_ceq _ _ Hi)).
  Qed.

  Lemma opre_kids o : opre_ok H S o → Forall (opre_ok H S) (okids o).
  Proof.
    unfold opre_ok. destruct o as [[k e|l r]|k e]; cbn; rewrite ?Forall_cons, ?Forall_app; naive_solver.
  Qed.
  Lemma locs_cons o q : locs (o :: q) = oloc H o :: locs (okids o) ++ locs q.
  Proof.
    unfold locs. rewrite fmap_cons. cbn [mjoin list_join]. fold (mjoin (M := list) (A := obj n)).
    rewrite (oobjs_unfold o). cbn [app]. by rewrite fmap_cons, fmap_app.
  Qed.
  Lemma locs_app q q' : locs (q ++ q') = locs q ++ locs q'.
  Proof. unfold locs. by rewrite !fmap_app, mjoin_app, fmap_app. Qed.

  Lemma remove_loop_wp fuel q s E : rmi s q → length (locs q) ≤ fuel →
    wp B H S RJ (remove_loop fuel (oloc H <$> q))
      (λ _ s', rmi s' [] ∧ b_vis B s' = bview s' ∧ bpend s' = []) E s.
  Proof using Hinj.
    revert q s. induction fuel as [|fuel IH]; intros q s Hi Hf.
    - destruct q as [|o q]; [|rewrite locs_cons in Hf; simpl in Hf; lia].
      cbn. assert (rmi (b_flush B s) []) as Hi'.
      { destruct Hi. constructor; rewrite ?bview_flush, ?bvis_flush, ?bpend_flush; try done.
        - intros l nd nd' H1 H2. rewrite H1 in H2. by simplify_eq.
        - intros l ?%elem_of_nil. done. }
      split; [by eapply rmi_RJ|]. split_and!; [done|by rewrite bview_flush, bvis_flush|apply bpend_flush].
    - destruct q as [|o q].
      { cbn. assert (rmi (b_flush B s) []) as Hi'.
        { destruct Hi. constructor; rewrite ?bview_flush, ?bvis_flush, ?bpend_flush; try done.
          - intros l nd nd' H1 H2. rewrite H1 in H2. by simplify_eq.
          - intros l ?%elem_of_nil. done. }
        split; [by eapply rmi_RJ|]. split_and!; [done|by rewrite bview_flush, bvis_flush|apply bpend_flush]. }
      rewrite fmap_cons. cbn [remove_loop get_node mbind prog_bind pbind Logic.wp].
      pose proof (rmi_pre _ _ Hi) as Hpre. apply Forall_cons in Hpre as [Ho Hpre].
      pose proof (rmi_nodup _ _ Hi) as Hnd. rewrite locs_cons in Hnd, Hf. apply NoDup_cons in Hnd as [Hni Hnd].
      rewrite elem_of_app in Hni. cbn [length] in Hf. rewrite app_length in Hf.
      assert (oloc H o ∉ bpend s) as Hop.
      { intros Hin. apply (rmi_pend _ _ Hi _ Hin). rewrite locs_cons. by left. }
      destruct (rmi_rc _ _ Hi) as (Hk & HX & Hc).
      destruct (HX (oloc H o)) as [nd Hnd'].
      { apply elem_of_app. right. by left. }
      rewrite (bvis_view s (oloc H o) Hop), Hnd'.
      destruct (proper_lookup H S Hinj (bview s) o nd (rmi_proper _ _ Hi) Ho Hnd') as (Hv & _ & _).
      assert (RC ex (bview s) (oloc H o :: X ++ (oloc H <$> q))) as HR.
      { eapply RC_perm; [|apply Hi]. simpl. by rewrite Permutation_middle. }
      destruct (Nat.eqb_spec (refs nd - 1) 0) as [Hz|Hz].
      + (* deleted *)
        destruct (RC_delete ex _ _ _ _ Hnd' Hz HR) as (HR' & Hp0 & HlX).
        rewrite Hv, okids_children in HR'.
        assert (rmi (b_del B s (oloc H o)) (q ++ okids o)) as Hi'.
        { constructor; rewrite ?bview_del by done; rewrite ?bvis_del, ?bpend_del.
          - by rewrite fmap_app, (assoc_L (++)).
          - apply (shallow_proper H S Hinj); [|by destruct HR'].
            intros l nd' [_ Hl]%lookup_delete_Some. by apply (proper_shallow H S _ (rmi_proper _ _ Hi)).
          - apply ceq_delete, Hi.
          - intros l n1 n2 [_ H1]%lookup_delete_Some [_ H2]%lookup_delete_Some. by eapply (rmi_ge _ _ Hi).
          - intros l v Hl. apply (rmi_cle _ _ Hi). apply has_lookup in Hl as [rf Hl].
            apply lookup_delete_Some in Hl as [_ Hl]. apply has_lookup. eauto.
          - rewrite locs_app. rewrite Permutation_app_comm. done.
          - intros l Hl Hin. apply (rmi_pend _ _ Hi l Hl). rewrite locs_cons. right.
            rewrite locs_app in Hin. apply elem_of_app in Hin. apply elem_of_app. tauto.
          - apply Forall_app. split; [done|]. by apply opre_kids. }
        assert (wp B H S RJ (remove_loop fuel (oloc H <$> q ++ okids o))
          (λ _ s', rmi s' [] ∧ b_vis B s' = bview s' ∧ bpend s' = []) E (b_del B s (oloc H o))) as Hw.
        { apply IH; [done|]. rewrite locs_app, app_length. lia. }
        rewrite fmap_app, <- okids_children in Hw. rewrite Hv.
        destruct o as [[k e|l r]|k e]; cbn [ovar tvar children] in *;
          cbn [db_remove mbind prog_bind pbind Logic.wp]; (split; [by eapply rmi_RJ|]); try done.
        by rewrite app_nil_r in Hw.
      + (* one reference less *)
        pose proof (RC_drop ex _ _ _ _ Hnd' Hz HR) as HR'.
        assert (rmi (b_put B s (oloc H o) (Node (refs nd - 1) (var nd))) q) as Hi'.
        { set (nd' := Node (refs nd - 1) (var nd)) in *.
          assert (ceq (b_vis B s) (<[oloc H o := nd']> (bview s))) as Hce.
          { eapply ceq_insert; [apply Hi|done|done]. }
          constructor; rewrite ?bview_put.
          - done.
          - apply (proper_put H S Hinj); try done; [apply Hi| |].
            + by destruct (proper_lookup H S Hinj (bview s) o nd (rmi_proper _ _ Hi) Ho Hnd') as (_ & _ & ?).
            + by destruct (proper_lookup H S Hinj (bview s) o nd (rmi_proper _ _ Hi) Ho Hnd') as (_ & ? & _).
          - destruct (bvis_put s (oloc H o) nd') as [->| ->]; rewrite ?bview_put; [done|by intros l].
          - intros l n1 n2. destruct (bvis_put s (oloc H o) nd') as [->| ->]; rewrite ?bview_put.
            + intros H1 [[<- <-]|[_ H2]]%lookup_insert_Some; [|by eapply (rmi_ge _ _ Hi)].
              pose proof (rmi_ge _ _ Hi _ _ _ H1 Hnd'). simpl. lia.
            + intros H1 H2. rewrite H1 in H2. by simplify_eq.
          - intros l v Hl. apply has_insert in Hl as [[<- <-]|[_ Hl]]; apply (rmi_cle _ _ Hi); [|done].
            unfold has. by rewrite Hnd'.
          - by apply NoDup_app in Hnd as (_ & _ & ?).
          - intros l [->|Hl]%bpend_put; [tauto|]. intros Hin. apply (rmi_pend _ _ Hi l Hl).
            rewrite locs_cons. right. apply elem_of_app. by right.
          - done. }
        cbn [db_insert mbind prog_bind pbind Logic.wp]. split; [by eapply rmi_RJ|].
        apply IH; [done|]. lia.
  Qed.

  Lemma locs_tree t : NoDup (tkeys t) → Forall S (tpre H t) → NoDup (locs [OT t]).
  Proof using Hinj.
    intros Hk Hp. unfold locs. cbn. rewrite app_nil_r.
    pose proof (tobjs_nodup t Hk) as Hnd.
    assert (∀ o, o ∈ tobjs t → opre_ok H S o) as Hpre.
    { intros o Ho%elem_of_tobjs. by eapply osub_pre. }
    revert Hnd Hpre. generalize (tobjs t). intros os. induction os as [|o os IH]; intros Hnd Hpre; [constructor|].
    apply NoDup_cons in Hnd as [Hni Hnd]. rewrite fmap_cons. constructor.
    - intros (o' & Heq & Hin)%elem_of_list_fmap. apply (oloc_inj H S Hinj) in Heq; [by subst| |].
      + apply Hpre. by left.
      + apply Hpre. by right.
    - apply IH; [done|]. intros o' ?. apply Hpre. by right.
  Qed.
  Lemma locs_stored m t : stored H m t → ∀ l, l ∈ locs [OT t] → is_Some (m !! l).
  Proof.
    intros Hst l (o & -> & Ho)%elem_of_list_fmap. cbn in Ho. rewrite app_nil_r in Ho.
    apply elem_of_tobjs in Ho. by eapply osub_stored.
  Qed.
  Lemma nodup_size m (ls : list (arr n)) : NoDup ls → (∀ l, l ∈ ls → is_Some (m !! l)) → length ls ≤ size m.
  Proof.
    intros Hnd Hin. rewrite <- size_dom, <- (size_list_to_set (C := gset (arr n)) ls Hnd).
    apply subseteq_size. intros l Hl%elem_of_list_to_set. apply elem_of_dom. auto.
  Qed.

  Theorem remove_wp t s E : RC ex (b_vis B s) (troot H t :: X) → proper H S (b_vis B s) →
    b_vis B s = bview s → bpend s = [] → cle (b_vis B s) m0 →
    Forall S (tpre H t) → NoDup (tkeys t) → stored H (b_vis B s) t →
    wp B H S RJ (remove_prog B s (troot H t))
      (λ _ s', RC ex (b_vis B s') X ∧ proper H S (b_vis B s') ∧ b_vis B s' = bview s' ∧ bpend s' = [] ∧
         cle (b_vis B s') m0 ∧ RJ s') E s.
  Proof using Hinj.
    intros HR Hp Hvv Hpend Hcle Hpre Hnd Hst. unfold remove_prog, remove.
    change [troot H t] with (oloc H <$> [OT t]).
    eapply wp_mono; [| |apply (remove_loop_wp _ [OT t])].
    - intros u s' (Hi & Hv' & Hp'). rewrite Hv'. split_and!; try done; try apply Hi; [|by eapply rmi_RJ].
      pose proof (rmi_rc _ _ Hi) as HR'. cbn in HR'. by rewrite app_nil_r in HR'.
    - done.
    - constructor; rewrite <- ?Hvv; try done.
      + eapply RC_perm; [|exact HR]. cbn. by rewrite Permutation_app_comm.
      + intros l nd nd' H1 H2. rewrite H1 in H2. by simplify_eq.
      + by apply locs_tree.
      + rewrite Hpend. by intros l ?%elem_of_nil.
      + by repeat constructor.
    - pose proof (nodup_size (b_vis B s) (locs [OT t]) (locs_tree t Hnd Hpre) (locs_stored _ _ Hst)). lia.
  Qed.
End RcRemove.
