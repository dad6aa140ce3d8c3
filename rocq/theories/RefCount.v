(** * Reference counts *)
From Coq Require Import Strings.Byte NArith.
From stdpp Require Import prelude countable gmap sorting strings.
From Verif Require Import Model Bits Spec Util Trie Store Logic Build Evol Route.

Local Open Scope nat_scope.

Section Count.
  Context {n : nat}.
  Implicit Types (m : db n) (l x : arr n) (X : list (arr n)).

  Lemma occ_nil x : occurrences x [] = 0.
  Proof. done. Qed.
  Lemma occ_cons x y X : occurrences x (y :: X) = (if decide (y = x) then 1 else 0) + occurrences x X.
  Proof. unfold occurrences. rewrite filter_cons. by destruct (decide (y = x)). Qed.
  Lemma occ_app x X Y : occurrences x (X ++ Y) = occurrences x X + occurrences x Y.
  Proof. unfold occurrences. by rewrite filter_app, app_length. Qed.
  Lemma occ_perm x X Y : X ≡ₚ Y → occurrences x X = occurrences x Y.
  Proof. intros Hp. unfold occurrences. by rewrite Hp. Qed.
  Lemma occ_pos x X : 0 < occurrences x X ↔ x ∈ X.
  Proof.
    induction X as [|y X IH]; [rewrite elem_of_nil, occ_nil; lia|].
    rewrite occ_cons, elem_of_cons, <- IH. destruct (decide (y = x)); naive_solver lia.
  Qed.
  Lemma occ_zero x X : occurrences x X = 0 ↔ x ∉ X.
  Proof. rewrite <- occ_pos. lia. Qed.

  Lemma pointers_empty x : pointers (∅ : db n) x = 0.
  Proof. unfold pointers. apply map_fold_empty. Qed.
  Lemma pointers_insert m l nd x : m !! l = None →
    pointers (<[l := nd]> m) x = occurrences x (children (var nd)) + pointers m x.
  Proof. intros Hl. unfold pointers. rewrite map_fold_insert_L; [done| |done]. intros; lia. Qed.
  Lemma pointers_delete m l nd x : m !! l = Some nd →
    pointers m x = occurrences x (children (var nd)) + pointers (delete l m) x.
  Proof.
    intros Hl. rewrite <- (insert_delete m l nd Hl) at 1. rewrite pointers_insert; [done|].
    apply lookup_delete.
  Qed.
  Lemma pointers_update m l nd nd' x : m !! l = Some nd → var nd' = var nd →
    pointers (<[l := nd']> m) x = pointers m x.
  Proof.
    intros Hl Hv. rewrite <- insert_delete_insert, pointers_insert by apply lookup_delete.
    rewrite Hv. symmetry. by apply pointers_delete.
  Qed.
  Lemma pointers_pos m x : 0 < pointers m x ↔ ∃ l nd, m !! l = Some nd ∧ x ∈ children (var nd).
  Proof.
    induction m as [|l nd m Hl IH] using map_ind.
    - rewrite pointers_empty. split; [lia|]. intros (l & nd & Hl & _). by rewrite lookup_empty in Hl.
    - rewrite pointers_insert by done. split.
      + intros Hp. destruct (decide (x ∈ children (var nd))) as [Hin|Hni].
        * exists l, nd. by rewrite lookup_insert.
        * apply occ_zero in Hni. destruct IH as [IH _]. destruct IH as (l' & nd' & Hl' & ?); [lia|].
          exists l', nd'. split; [|done]. rewrite lookup_insert_ne; [done|]. intros ->. congruence.
      + intros (l' & nd' & [[-> ->]|[_ Hl']]%lookup_insert_Some & Hin).
        * apply occ_pos in Hin. lia.
        * assert (0 < pointers m x); [|lia]. apply IH. eauto.
  Qed.
  Lemma pointers_zero m x : pointers m x = 0 ↔ ∀ l nd, m !! l = Some nd → x ∉ children (var nd).
  Proof.
    destruct (decide (pointers m x = 0)) as [He|Hne].
    - split; [|done]. intros _ l nd Hl Hin. assert (0 < pointers m x); [|lia]. apply pointers_pos. eauto.
    - split; [done|]. intros Hno. exfalso.
      destruct (proj1 (pointers_pos m x)) as (l & nd & ? & ?); [lia|]. by eapply Hno.
  Qed.
End Count.

Section RC.
  Context {n : nat} (H : list bytes → arr n).
  Context (S : list bytes → Prop) (Hinj : inj_on H S).
  (** [ex]: counts are exact; otherwise they may be too large. *)
  Context (ex : Prop).
  Implicit Types (m : db n) (l x : arr n) (X : list (arr n)) (t : trie n) (o : obj n) (k : arr n) (e : bytes).

  Definition okc (a b : nat) : Prop := b ≤ a ∧ (ex → a ≤ b ∧ 0 < a).
  Definition shallow m : Prop :=
    ∀ l nd, m !! l = Some nd → ∃ o, opre_ok H S o ∧ opwf o ∧ oloc H o = l ∧ ovar H o = var nd.
  Definition kids_in m : Prop :=
    ∀ l nd c, m !! l = Some nd → c ∈ children (var nd) → is_Some (m !! c).
  Definition counts m X : Prop :=
    ∀ l nd, m !! l = Some nd → okc (refs nd) (pointers m l + occurrences l X).
  Definition RC m X : Prop := kids_in m ∧ (∀ x, x ∈ X → is_Some (m !! x)) ∧ counts m X.

  (** ** Objects below a trie *)
  Definition osub o t : Prop :=
    match o with OT p => subtrie p t | OD k e => subtrie (TLeaf k e) t end.
  Definition okey o : arr n := match o with OT t => tmin t | OD k _ => k end.
  Definition osize o : nat := match o with OT t => tsize t | OD _ _ => 0 end.
  Fixpoint tobjs t : list (obj n) :=
    OT t :: match t with TLeaf k e => [OD k e] | TNode l r => tobjs l ++ tobjs r end.
  Definition oobjs o : list (obj n) := match o with OT t => tobjs t | OD k e => [OD k e] end.
  Definition okids o : list (obj n) :=
    match o with OT (TLeaf k e) => [OD k e] | OT (TNode l r) => [OT l; OT r] | OD _ _ => [] end.

  Lemma okids_children o : children (ovar H o) = oloc H <$> okids o.
  Proof. by destruct o as [[]|]. Qed.
  Lemma oobjs_unfold o : oobjs o = o :: mjoin (oobjs <$> okids o).
  Proof. destruct o as [[]|]; cbn; rewrite ?app_nil_r; done. Qed.

  Lemma elem_of_tobjs o t : o ∈ tobjs t ↔ osub o t.
  Proof.
    induction t as [k e|l IHl r IHr]; cbn [tobjs]; rewrite !elem_of_cons, ?elem_of_app, ?elem_of_nil.
    - split.
      + intros [->|[->|[]]]; constructor.
      + destruct o as [p|k' e']; simpl; inversion 1; subst; auto.
    - rewrite IHl, IHr. split.
      + intros [->|[Ho|Ho]]; [constructor| |]; (destruct o; simpl in *; by constructor).
      + destruct o as [p|k' e']; simpl; inversion 1; subst; auto.
  Qed.
  Lemma osub_key o t : osub o t → okey o ∈ tkeys t.
  Proof.
    destruct o as [p|k e]; simpl; intros Hs; eapply subtrie_keys; try exact Hs; [apply tmin_in|].
    by left.
  Qed.
  Lemma subtrie_size p t : subtrie p t → tsize p ≤ tsize t.
  Proof. induction 1; simpl; lia. Qed.
  Lemma subtrie_pre p t : subtrie p t → Forall S (tpre H t) → Forall S (tpre H p).
  Proof.
    induction 1; [done| |]; cbn [tpre]; rewrite Forall_cons, Forall_app; naive_solver.
  Qed.
  Lemma subtrie_stored m p t : subtrie p t → stored H m t → stored H m p.
  Proof. induction 1; [done| |]; intros (_ & ? & ?); auto. Qed.
  Lemma osub_pre o t : osub o t → Forall S (tpre H t) → opre_ok H S o.
  Proof.
    destruct o as [p|k e]; simpl; intros Hs Hp; apply (subtrie_pre _ _ Hs) in Hp; [done|].
    unfold opre_ok. simpl in *. apply Forall_cons in Hp as [? _]. by repeat constructor.
  Qed.
  Lemma osub_stored m o t : osub o t → stored H m t → is_Some (m !! oloc H o).
  Proof.
    destruct o as [p|k e]; simpl; intros Hs Hst; apply (subtrie_stored m _ _ Hs) in Hst.
    - apply stored_root, has_lookup in Hst as [rf ->]. eauto.
    - destruct Hst as [_ Hd]. apply has_lookup in Hd as [rf ->]. eauto.
  Qed.
  Lemma osub_mono o p t : osub o p → subtrie p t → osub o t.
  Proof. destruct o; simpl; intros; by eapply subtrie_trans. Qed.

  Lemma tobjs_nodup t : NoDup (tkeys t) → NoDup (tobjs t).
  Proof using.
    induction t as [k e|l IHl r IHr]; intros Hnd; cbn [tobjs].
    - constructor; [by intros ?%elem_of_list_singleton|]. constructor; [by intros ?%elem_of_nil|constructor].
    - rewrite tkeys_node in Hnd. apply NoDup_app in Hnd as (Hl & Hd & Hr).
      constructor.
      + rewrite elem_of_app, !elem_of_tobjs. simpl.
        intros [Hs|Hs]; apply subtrie_size in Hs; simpl in Hs;
          pose proof (tsize_pos l); pose proof (tsize_pos r); lia.
      + apply NoDup_app. split_and!; auto. intros o. rewrite !elem_of_tobjs.
        intros H1%osub_key H2%osub_key. by eapply Hd.
  Qed.

  (** ** Properness from the children *)
  Lemma shallow_stored m t nd : shallow m → kids_in m → Forall S (tpre H t) →
    m !! troot H t = Some nd → stored H m t.
  Proof.
    intros Hs Hk. revert nd. induction t as [k e|l IHl r IHr]; intros nd Hp Hl.
    - destruct (Hs _ _ Hl) as (o & Ho & _ & Hloc & Hv).
      apply (oloc_inj H S Hinj o (OT (TLeaf k e))) in Hloc; [|done|done]. subst o.
      cbn [stored]. split; [unfold has; cbn [troot] in Hl; rewrite Hl; cbn; by rewrite <- Hv|].
      destruct (Hk _ _ (dloc H k e) Hl) as [nd' Hd].
      { rewrite <- Hv. cbn. by left. }
      destruct (Hs _ _ Hd) as (o & Ho' & _ & Hloc & Hv').
      apply (oloc_inj H S Hinj o (OD k e)) in Hloc; [|done|].
      + subst o. unfold has. rewrite Hd. cbn. by rewrite <- Hv'.
      + simpl in Hp. apply Forall_cons in Hp as [? _]. by repeat constructor.
    - destruct (Hs _ _ Hl) as (o & Ho & _ & Hloc & Hv).
      apply (oloc_inj H S Hinj o (OT (TNode l r))) in Hloc; [|done|done]. subst o.
      cbn [stored]. split; [unfold has; rewrite Hl; cbn; by rewrite <- Hv|].
      cbn [tpre] in Hp. apply Forall_cons in Hp as [_ Hp]. apply Forall_app in Hp as [Hp1 Hp2].
      destruct (Hk _ _ (troot H l) Hl) as [nd1 H1]; [rewrite <- Hv; cbn; by left|].
      destruct (Hk _ _ (troot H r) Hl) as [nd2 H2]; [rewrite <- Hv; cbn; right; by left|].
      split; eauto.
  Qed.
  Lemma shallow_proper m : shallow m → kids_in m → proper H S m.
  Proof.
    intros Hs Hk l nd Hl. destruct (Hs _ _ Hl) as (o & Ho & Hw & Hloc & Hv).
    exists o. split_and!; try done. destruct o as [t|k e]; [|done].
    subst l. cbn [oloc] in Hl. pose proof (shallow_stored m t nd Hs Hk Ho Hl) as Hst.
    by destruct (proj1 (ostored_iff H m (OT t)) Hst).
  Qed.
  Lemma proper_shallow m : proper H S m → shallow m.
  Proof. intros Hp l nd Hl. destruct (Hp _ _ Hl) as (o & ?&?&?&?&_). by exists o. Qed.
  Lemma proper_kids m : proper H S m → kids_in m.
  Proof.
    intros Hp l nd c Hl Hc. destruct (Hp _ _ Hl) as (o & Ho & _ & Hloc & Hv & Hb).
    rewrite <- Hv in Hc. destruct o as [[k e|t1 t2]|k e]; cbn in Hc, Hb.
    - apply elem_of_list_singleton in Hc as ->. apply has_lookup in Hb as [rf ->]. eauto.
    - destruct Hb as [H1 H2]. apply stored_root, has_lookup in H1 as [rf1 H1], H2 as [rf2 H2].
      rewrite elem_of_cons, elem_of_list_singleton in Hc. destruct Hc as [->| ->]; eauto.
    - by apply elem_of_nil in Hc.
  Qed.

  (** ** What keeps a node alive *)
  Lemma size_bound m : shallow m →
    ∃ N, ∀ o, opre_ok H S o → is_Some (m !! oloc H o) → osize o ≤ N.
  Proof.
    intros Hs.
    assert (∀ l nd, m !! l = Some nd → ∃ o, opre_ok H S o ∧ oloc H o = l) as Hs'.
    { intros l nd Hl. destruct (Hs l nd Hl) as (o & ?&_&?&_). eauto. }
    clear Hs. induction m as [|l nd m Hl IH] using map_ind.
    - exists 0. intros o _ [nd Hnd]. by rewrite lookup_empty in Hnd.
    - destruct IH as [N HN].
      { intros l' nd' Hl'. apply (Hs' l' nd'). rewrite lookup_insert_ne; [done|]. intros ->. congruence. }
      destruct (Hs' l nd) as (o & Ho & <-); [by rewrite lookup_insert|].
      exists (max N (osize o)). intros o' Ho' [nd' [[Heq _]|[_ Hl']]%lookup_insert_Some].
      + apply (oloc_inj H S Hinj) in Heq; [|done|done]. subst. lia.
      + assert (osize o' ≤ N) by eauto. lia.
  Qed.

  Lemma parent_obj m o l nd : proper H S m → opre_ok H S o → m !! l = Some nd →
    oloc H o ∈ children (var nd) →
    ∃ p, opre_ok H S p ∧ oloc H p = l ∧ o ∈ okids p.
  Proof.
    intros Hp Ho Hl Hc. destruct (Hp _ _ Hl) as (p & Hpp & _ & Hloc & Hv & _).
    exists p. split_and!; [done|done|]. rewrite <- Hv, okids_children in Hc.
    apply elem_of_list_fmap in Hc as (o' & Heq & Hin).
    apply (oloc_inj H S Hinj) in Heq; [by subst|done|].
    destruct p as [[k e|t1 t2]|k e]; cbn in Hin, Hpp; unfold opre_ok in *; cbn [opre tpre] in *.
    - apply elem_of_list_singleton in Hin as ->. cbn. apply Forall_cons in Hpp as [? _]. by repeat constructor.
    - apply Forall_cons in Hpp as [_ Hpp]. apply Forall_app in Hpp as [? ?].
      rewrite elem_of_cons, elem_of_list_singleton in Hin. by destruct Hin as [->| ->].
    - by apply elem_of_nil in Hin.
  Qed.
  Lemma okids_size o p : o ∈ okids p → osize o < osize p.
  Proof.
    destruct p as [[k e|t1 t2]|k e]; cbn.
    - intros ->%elem_of_list_singleton. simpl. lia.
    - pose proof (tsize_pos t1). pose proof (tsize_pos t2).
      rewrite elem_of_cons, elem_of_list_singleton. intros [->| ->]; simpl; lia.
    - by intros ?%elem_of_nil.
  Qed.
  Lemma okids_osub o p t : o ∈ okids p → osub p t → osub o t.
  Proof.
    destruct p as [[k e|t1 t2]|k e]; cbn.
    - by intros ->%elem_of_list_singleton.
    - rewrite elem_of_cons, elem_of_list_singleton.
      intros [->| ->] Hs; simpl; (eapply subtrie_trans; [|exact Hs]); [apply sub_l|apply sub_r]; constructor.
    - by intros ?%elem_of_nil.
  Qed.

  Lemma alive m (hts : list (trie n)) : ex → proper H S m → RC m (troot H <$> hts) →
    Forall (λ t, Forall S (tpre H t)) hts →
    ∀ o, opre_ok H S o → is_Some (m !! oloc H o) → ∃ t, t ∈ hts ∧ osub o t.
  Proof.
    intros Hex Hp (Hk & HX & Hc) Hpre.
    destruct (size_bound m (proper_shallow m Hp)) as [N HN].
    assert (∀ d o, N - osize o ≤ d → opre_ok H S o → is_Some (m !! oloc H o) → ∃ t, t ∈ hts ∧ osub o t) as Hgo.
    { induction d as [d IH] using lt_wf_ind. intros o Hd Ho [nd Hnd].
      destruct (Hc _ _ Hnd) as [Hle Hx]. destruct (Hx Hex) as [Hge Hpos].
      destruct (decide (0 < pointers m (oloc H o))) as [Hpt|Hpt].
      - apply pointers_pos in Hpt as (l & nd' & Hl & Hin).
        destruct (parent_obj m o l nd' Hp Ho Hl Hin) as (p & Hpp & Hloc & Hkid).
        pose proof (okids_size o p Hkid) as Hsz.
        assert (osize p ≤ N) as HpN. { apply HN; [done|]. rewrite Hloc. eauto. }
        destruct (IH (N - osize p) ltac:(lia) p ltac:(lia) Hpp) as (t & Ht & Hsub).
        { rewrite Hloc. eauto. }
        exists t. split; [done|]. by eapply okids_osub.
      - assert (0 < occurrences (oloc H o) (troot H <$> hts)) as Hocc by lia.
        apply occ_pos, elem_of_list_fmap in Hocc as (t & Heq & Ht).
        exists t. split; [done|]. rewrite Forall_forall in Hpre.
        change (troot H t) with (oloc H (OT t)) in Heq.
        apply (oloc_inj H S Hinj) in Heq; [|done|by apply (Hpre t)]. subst o. constructor. }
    intros o Ho Hs. by apply (Hgo (N - osize o)).
  Qed.
  Lemma no_handles m : ex → proper H S m → RC m [] → m = ∅.
  Proof.
    intros Hex Hp HR. apply map_empty. intros l. destruct (m !! l) as [nd|] eqn:Hl; [|done]. exfalso.
    destruct (Hp _ _ Hl) as (o & Ho & _ & <- & _).
    destruct (alive m [] Hex Hp HR ltac:(constructor) o Ho) as (t & Ht & _); [eauto|].
    by apply elem_of_nil in Ht.
  Qed.

  (** ** Elementary changes *)
  Lemma RC_perm m X Y : X ≡ₚ Y → RC m X → RC m Y.
  Proof.
    intros Hp (Hk & HX & Hc). split_and!; [done| |].
    - intros x. rewrite <- Hp. apply HX.
    - intros l nd Hl. rewrite <- (occ_perm l X Y Hp). by apply Hc.
  Qed.
  Lemma okc_succ a b : okc a b → okc (a + 1) (b + 1).
  Proof. intros [? Hx]. split; [lia|]. intros He. specialize (Hx He). lia. Qed.

  (** A new node takes over references. *)
  Lemma RC_new m X Y l nd : m !! l = None → refs nd = 1 → 
    X ≡ₚ children (var nd) ++ Y → RC m X → RC (<[l := nd]> m) (l :: Y).
  Proof.
    intros Hl Hr HXY HR. apply (RC_perm _ _ _ HXY) in HR as (Hk & HX & Hc).
    assert (∀ x, is_Some (m !! x) → is_Some (<[l:=nd]> m !! x)) as Hmono.
    { intros x [nd' Hx]. rewrite lookup_insert_is_Some'. eauto. }
    split_and!.
    - intros l' nd' c [[<- <-]|[_ Hl']]%lookup_insert_Some Hin; apply Hmono; [|by eapply Hk].
      apply HX, elem_of_app. by left.
    - intros x [->|Hx]%elem_of_cons; [rewrite lookup_insert; eauto|]. apply Hmono, HX, elem_of_app. by right.
    - intros l' nd' Hl'. rewrite pointers_insert, occ_cons by done.
      apply lookup_insert_Some in Hl' as [[<- <-]|[Hne Hl']].
      + rewrite decide_True by done.
        assert (pointers m l = 0) as ->.
        { apply pointers_zero. intros l' nd' Hl' Hin. destruct (Hk _ _ _ Hl' Hin). congruence. }
        assert (∀ Z, (∀ x, x ∈ Z → x ∈ children (var nd) ++ Y) → occurrences l Z = 0) as Hz.
        { intros Z HZ. apply occ_zero. intros Hin. destruct (HX l (HZ l Hin)). congruence. }
        rewrite (Hz (children (var nd))), (Hz Y) by (intros; apply elem_of_app; auto).
        rewrite Hr. split; [lia|]. intros _. lia.
      + rewrite decide_False by done. specialize (Hc _ _ Hl'). rewrite occ_app in Hc.
        replace (_ + _ + _) with (pointers m l' + (occurrences l' (children (var nd)) + occurrences l' Y)) by lia.
        done.
  Qed.
  (** One more reference to an existing node. *)
  Lemma RC_bump m X l nd : m !! l = Some nd → RC m X →
    RC (<[l := Node (refs nd + 1) (var nd)]> m) (l :: X).
  Proof.
    intros Hl (Hk & HX & Hc).
    assert (∀ x, is_Some (m !! x) → is_Some (<[l:=Node (refs nd + 1) (var nd)]> m !! x)) as Hmono.
    { intros x [nd' Hx]. rewrite lookup_insert_is_Some'. eauto. }
    split_and!.
    - intros l' nd' c [[<- <-]|[_ Hl']]%lookup_insert_Some Hin; apply Hmono; by eapply Hk.
    - intros x [->|Hx]%elem_of_cons; [rewrite lookup_insert; eauto|]. by apply Hmono, HX.
    - intros l' nd' Hl'. rewrite (pointers_update m l nd) by done. rewrite occ_cons.
      apply lookup_insert_Some in Hl' as [[<- <-]|[Hne Hl']].
      + rewrite decide_True by done. simpl refs.
        replace (pointers m l + (1 + occurrences l X)) with (pointers m l + occurrences l X + 1) by lia.
        apply okc_succ. by apply Hc.
      + rewrite decide_False by done. by apply Hc.
  Qed.
  (** One reference less, the node stays. *)
  Lemma RC_drop m X l nd : m !! l = Some nd → refs nd - 1 ≠ 0 → RC m (l :: X) →
    RC (<[l := Node (refs nd - 1) (var nd)]> m) X.
  Proof.
    intros Hl Hr (Hk & HX & Hc).
    assert (∀ x, is_Some (m !! x) → is_Some (<[l:=Node (refs nd - 1) (var nd)]> m !! x)) as Hmono.
    { intros x [nd' Hx]. rewrite lookup_insert_is_Some'. eauto. }
    split_and!.
    - intros l' nd' c [[<- <-]|[_ Hl']]%lookup_insert_Some Hin; apply Hmono; by eapply Hk.
    - intros x Hx. apply Hmono, HX. by right.
    - intros l' nd' Hl'. rewrite (pointers_update m l nd) by done.
      apply lookup_insert_Some in Hl' as [[<- <-]|[Hne Hl']].
      + specialize (Hc _ _ Hl). rewrite occ_cons, decide_True in Hc by done. simpl.
        destruct Hc as [Hc1 Hc2]. split; [lia|]. intros He. specialize (Hc2 He). lia.
      + specialize (Hc _ _ Hl'). by rewrite occ_cons, decide_False in Hc.
  Qed.
  (** The last reference goes. *)
  Lemma RC_delete m X l nd : m !! l = Some nd → refs nd - 1 = 0 → RC m (l :: X) →
    RC (delete l m) (X ++ children (var nd)) ∧ pointers m l = 0 ∧ l ∉ X.
  Proof.
    intros Hl Hr (Hk & HX & Hc).
    assert (pointers m l = 0 ∧ occurrences l X = 0) as [Hp0 Ho0].
    { specialize (Hc _ _ Hl). rewrite occ_cons, decide_True in Hc by done. destruct Hc as [Hc _]. lia. }
    assert (l ∉ X) as HlX by (by apply occ_zero).
    split_and!; [|done|done].
    assert (∀ c l' nd', m !! l' = Some nd' → c ∈ children (var nd') → is_Some (delete l m !! c)) as Hkid.
    { intros c l' nd' Hl' Hc'. rewrite lookup_delete_is_Some. split; [|by eapply Hk].
      intros <-. by eapply (proj1 (pointers_zero m l) Hp0). }
    split_and!.
    - intros l' nd' c [_ Hl']%lookup_delete_Some Hin. by eapply Hkid.
    - intros x [Hx|Hx]%elem_of_app; [|by eapply Hkid].
      rewrite lookup_delete_is_Some. split; [congruence|]. apply HX. by right.
    - intros l' nd' [Hne Hl']%lookup_delete_Some.
      specialize (Hc _ _ Hl'). rewrite occ_cons, decide_False in Hc by done.
      rewrite (pointers_delete m l nd) in Hc by done. rewrite occ_app.
      replace (_ + (_ + _)) with (occurrences l' (children (var nd)) + pointers (delete l m) l' + (0 + occurrences l' X)) by lia.
      done.
  Qed.
End RC.
