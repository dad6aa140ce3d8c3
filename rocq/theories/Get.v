(** * Multi-key reads *)
From Coq Require Import Strings.Byte NArith.
From stdpp Require Import prelude countable gmap sorting strings.
From Verif Require Import Model Bits Spec Util Trie Store Logic Build Route Reads Insert Update.

Local Open Scope nat_scope.

Section Get.
  Context {n : nat} (Hn : 0 < n) (H : list bytes → arr n) (B : backend n).
  Context {V : Type} (decode : bytes → res V) (Hdec : ∀ e, decode e ≠ Pan) (max_depth : nat).
  Implicit Types (t : trie n) (k : arr n) (e : bytes) (ks keys : list (arr n)) (s : b_st B).
  Implicit Types (lm : gmap (arr n) (option V)).
  Notation wp := (wp B H (λ _, True) (λ _, True)).

  Definition gcellok s (c : cell) t : Prop :=
    cloc c = troot H t ∧ var (cnode c) = tvar H t ∧ stored H (b_vis B s) t ∧ tpwf t ∧
    ksorted (ckeys c) ∧ ckeys c ≠ [].
  Definition gets (q : list cell) (tq : list (trie n)) : list (arr n * bytes) :=
    mjoin (zip_with (λ c t, wget t (ckeys c)) q tq).
  (** Effect of one visited leaf on the result. *)
  Definition ins keys lm (p : arr n * bytes) : gmap (arr n) (option V) :=
    if decide (p.1 ∈ keys) then
      match decode p.2 with Ok v => <[p.1 := Some v]> lm | _ => lm end
    else lm.

  Lemma depth_cons c0 t0 L :
    (∀ (c : cell) t, (c, t) ∈ (c0, t0) :: L → cdepth c + wdep t (ckeys c) ≤ max_depth) ↔
    cdepth c0 + wdep t0 (ckeys c0) ≤ max_depth ∧
    (∀ c t, (c, t) ∈ L → cdepth c + wdep t (ckeys c) ≤ max_depth).
  Proof.
    split.
    - intros Hx. split; [apply Hx; by left|]. intros c t ?. apply Hx. by right.
    - intros [H1 H2] c t [[= -> ->]|Hin]%elem_of_cons; auto.
  Qed.

  Lemma push_cell_wp q d lc ks nd s E : b_vis B s !! lc = Some nd →
    wp (push_cell_if_node q d lc ks)
      (λ q' s', s' = s ∧ q' = match ks with [] => q | _ => Cell lc ks nd (d + 1) :: q end) E s.
  Proof.
    intros Hl. unfold push_cell_if_node. cbn [get_node mbind prog_bind pbind Logic.wp].
    rewrite Hl. by destruct ks.
  Qed.

  Lemma get_loop_wp keys fuel lm q tq s :
    ksorted keys → Forall2 (gcellok s) q tq → measure max_depth q ≤ fuel →
    (∀ c, c ∈ q → cdepth c ≤ max_depth + 1) →
    wp (get_loop decode max_depth fuel keys lm q)
      (λ lm' s', s' = s ∧ lm' = foldl (ins keys) lm (gets q tq) ∧
         (∀ p, p ∈ gets q tq → ∃ v, decode p.2 = Ok v) ∧
         (∀ c t, (c, t) ∈ zip q tq → cdepth c + wdep t (ckeys c) ≤ max_depth))
      (λ er s', s' = s ∧
         ((er = "Depth of merkle tree exceeded" ∧
             ∃ c t, (c, t) ∈ zip q tq ∧ max_depth < cdepth c + wdep t (ckeys c)) ∨
          ∃ p, p ∈ gets q tq ∧ decode p.2 = Err er)) s.
  Proof.
    intros Hkeys. revert lm q tq. induction fuel as [fuel IH] using lt_wf_ind.
    intros lm q tq Hq Hfuel Hdep.
    destruct Hq as [|c t q tq Hc Hq].
    { destruct fuel; cbn; (split_and!; [done|done|by intros p ?%elem_of_nil|by intros c t ?%elem_of_nil]). }
    pose proof Hc as (Hcl & Hcv & Hst & Hw & Hks & Hne).
    assert (1 ≤ length (ckeys c)) as Hlen by (destruct (ckeys c); [done|simpl; lia]).
    pose proof (Hdep c ltac:(by left)) as Hdc.
    change (measure max_depth (c :: q))
      with (length (ckeys c) * (max_depth + 2 - cdepth c) + measure max_depth q) in Hfuel.
    assert (length (ckeys c) + measure max_depth q ≤ fuel) as Hf1.
    { assert (1 ≤ max_depth + 2 - cdepth c) by lia. nia. }
    destruct fuel as [|fuel]; [lia|]. cbn [get_loop].
    destruct (Nat.ltb_spec max_depth (cdepth c)) as [Hgt|Hle].
    { cbn. split; [done|]. left. split; [done|]. exists c, t. split; [by left|lia]. }
    rewrite Hcv.
    assert (gets (c :: q) (t :: tq) = wget t (ckeys c) ++ gets q tq) as Hgs by done.
    assert (∀ c', c' ∈ q → cdepth c' ≤ max_depth + 1) as Hdq by (intros c' ?; apply Hdep; by right).
    (* continuing with a smaller problem *)
    assert (∀ (fuel' : nat) lm' q' tq' (pre : list (arr n * bytes)),
      fuel' < Datatypes.S fuel → Forall2 (gcellok s) q' tq' → measure max_depth q' ≤ fuel' →
      (∀ c', c' ∈ q' → cdepth c' ≤ max_depth + 1) →
      gets (c :: q) (t :: tq) = pre ++ gets q' tq' →
      lm' = foldl (ins keys) lm pre →
      (∀ p, p ∈ pre → ∃ v, decode p.2 = Ok v) →
      ((∀ c t, (c, t) ∈ zip q' tq' → cdepth c + wdep t (ckeys c) ≤ max_depth) ↔
       (∀ c' t', (c', t') ∈ (c, t) :: zip q tq → cdepth c' + wdep t' (ckeys c') ≤ max_depth)) →
      wp (get_loop decode max_depth fuel' keys lm' q')
        (λ lm' s', s' = s ∧ lm' = foldl (ins keys) lm (gets (c :: q) (t :: tq)) ∧
           (∀ p, p ∈ gets (c :: q) (t :: tq) → ∃ v, decode p.2 = Ok v) ∧
           (∀ c' t', (c', t') ∈ (c, t) :: zip q tq → cdepth c' + wdep t' (ckeys c') ≤ max_depth))
        (λ er s', s' = s ∧
           ((er = "Depth of merkle tree exceeded" ∧
             ∃ c' t', (c', t') ∈ (c, t) :: zip q tq ∧ max_depth < cdepth c' + wdep t' (ckeys c')) ∨
            ∃ p, p ∈ gets (c :: q) (t :: tq) ∧ decode p.2 = Err er)) s) as Hgo.
    { intros fuel' lm' q' tq' pre Hlt Hq' Hm' Hd' Hpre -> Hok Hiff.
      eapply wp_mono; [| |apply (IH fuel' Hlt _ q' tq')]; try done.
      - intros lm'' s' (-> & -> & Hall & Hdd). split_and!; [done| | |].
        + by rewrite Hpre, foldl_app.
        + intros p. rewrite Hpre, elem_of_app. intros [?|?]; auto.
        + by apply Hiff.
      - intros er s' (-> & Her). split; [done|].
        destruct Her as [(-> & c' & t' & Hin & Hbad)|(p & Hp & He)].
        + left. split; [done|].
          destruct (decide (Exists (λ p, max_depth < cdepth p.1 + wdep p.2 (ckeys p.1)) ((c, t) :: zip q tq)))
            as [Hex|Hnex].
          * apply Exists_exists in Hex as ([c1 t1] & Hi & Hb). by exists c1, t1.
          * exfalso. apply Forall_Exists_neg in Hnex.
            assert (cdepth c' + wdep t' (ckeys c') ≤ max_depth); [|lia].
            apply Hiff; [|done]. intros c1 t1 Hi. rewrite Forall_forall in Hnex.
            specialize (Hnex _ Hi). simpl in Hnex. lia.
        + right. exists p. split; [|done]. rewrite Hpre. apply elem_of_app. by right. }
    destruct t as [lk le|l r]; cbn [tvar].
    - (* leaf *)
      pose proof Hst as [_ Hd]. apply has_lookup in Hd as [rf Hd].
      cbn [get_node mbind prog_bind pbind Logic.wp]. rewrite Hd. cbn [var].
      cbn [wget wdep] in Hgs.
      destruct (decode le) as [v|er|] eqn:Hle'; [| |by apply Hdec in Hle'].
      2:{ split; [done|]. right. exists (lk, le). split; [|done]. rewrite Hgs. by left. }
      cbn [lift mbind prog_bind pbind].
      assert ((∀ c t, (c, t) ∈ zip q tq → cdepth c + wdep t (ckeys c) ≤ max_depth) ↔
       (∀ c' t', (c', t') ∈ (c, TLeaf lk le) :: zip q tq → cdepth c' + wdep t' (ckeys c') ≤ max_depth)) as Hiff.
      { split; [|intros Hx c' t' ?; apply Hx; by right].
        intros Hx c' t' [[= -> ->]|?]%elem_of_cons; [simpl; lia|by apply Hx]. }
      pose proof (binary_search_spec keys lk Hkeys) as Hbs.
      destruct (binary_search keys lk) as [i|].
      + unfold index. rewrite Hbs. cbn [lift mbind prog_bind pbind].
        eapply (Hgo fuel _ q tq [(lk, le)]); try done; [lia|lia| |].
        * cbn. unfold ins. cbn. rewrite decide_True; [by rewrite Hle'|].
          by eapply elem_of_list_lookup_2.
        * intros p ->%elem_of_list_singleton. eauto.
      + eapply (Hgo fuel _ q tq [(lk, le)]); try done; [lia|lia| |].
        * cbn. unfold ins. cbn. by rewrite decide_False.
        * intros p ->%elem_of_list_singleton. eauto.
    - (* branch *)
      destruct Hw as (Hwl & Hwr & Hltlr). pose proof (tsplit_lt l r Hltlr) as Hs8.
      destruct Hst as (Hstn & Hstl & Hstr).
      destruct (node_desc_spec (ckeys c) (tsplit l r) (tmin l) Hn Hks Hne Hs8)
        as (mi & Hmi & Hcd & Hge & _).
      rewrite Hmi. cbn [lift mbind prog_bind pbind].
      set (D := node_desc (ckeys c) (tsplit l r) (tmin l)) in *.
      rewrite Hcd. cbn [lift mbind prog_bind pbind].
      destruct (decide (D = [])) as [HD|HD].
      + rewrite HD. eapply (Hgo fuel _ q tq []); try done; [lia|lia| | |].
        * rewrite Hgs. cbn [wget]. fold D. by rewrite HD.
        * by intros p ?%elem_of_nil.
        * split; [|intros Hx c' t' ?; apply Hx; by right].
          intros Hx c' t' [[= -> ->]|?]%elem_of_cons; [|by apply Hx].
          cbn [wdep]. fold D. rewrite HD. lia.
      + destruct (node_split_app D (tsplit l r) Hs8) as [Hsp Happ].
        assert (∀ A (a b : A), match D with [] => a | _ => b end = b) as HDm.
        { intros A a b. destruct D; done. }
        rewrite HDm. rewrite Hsp. cbn [lift mbind prog_bind pbind].
        destruct (node_split D (tsplit l r)) as [zs os] eqn:Hzo. cbn [fst snd] in *.
        assert (ksorted D) as HsD by (apply node_desc_sorted; done).
        assert (length D ≤ length (ckeys c)) as HlD by (apply node_desc_length; done).
        rewrite <- Happ in HsD. apply StronglySorted_app_inv in HsD as (Hsz & Hso & _).
        assert (length zs + length os ≤ length (ckeys c)) as Hlzo.
        { rewrite <- app_length, Happ. done. }
        assert (wget (TNode l r) (ckeys c) =
          match zs with [] => [] | _ => wget l zs end ++ match os with [] => [] | _ => wget r os end) as Hwd.
        { cbn [wget]. fold D. destruct D as [|d D']; [done|]. rewrite Hzo. cbn [fst snd].
          by destruct zs, os. }
        assert (wdep (TNode l r) (ckeys c) =
          max match zs with [] => 0 | _ => Datatypes.S (wdep l zs) end
              match os with [] => 0 | _ => Datatypes.S (wdep r os) end) as Hwp.
        { cbn [wdep]. fold D. destruct D as [|d D']; [done|]. rewrite Hzo. cbn [fst snd].
          by destruct zs, os. }
        rewrite Hwd in Hgs. clear HDm.
        apply stored_root in Hstl as Hrl. apply has_lookup in Hrl as [rfl Hrl].
        apply stored_root in Hstr as Hrr. apply has_lookup in Hrr as [rfr Hrr].
        set (q1 := match os with [] => q | _ => Cell (troot H r) os (Node rfr (tvar H r)) (cdepth c + 1) :: q end).
        set (tq1 := match os with [] => tq | _ => r :: tq end).
        set (q2 := match zs with [] => q1 | _ => Cell (troot H l) zs (Node rfl (tvar H l)) (cdepth c + 1) :: q1 end).
        set (tq2 := match zs with [] => tq1 | _ => l :: tq1 end).
        apply wp_bind. eapply wp_mono; [|intros er s' Hf; exact Hf|by eapply push_cell_wp].
        intros q1' s' [-> ->]. fold q1.
        apply wp_bind. eapply wp_mono; [|intros er s' Hf; exact Hf|by eapply push_cell_wp].
        intros q2' s' [-> ->]. fold q2.
        assert (Forall2 (gcellok s) q1 tq1) as Hq1.
        { unfold q1, tq1. destruct os; [done|]. constructor; [|done]. unfold gcellok. by split_and!. }
        assert (Forall2 (gcellok s) q2 tq2) as Hq2.
        { unfold q2, tq2. destruct zs; [done|]. constructor; [|done]. unfold gcellok. by split_and!. }
        eapply (Hgo fuel lm q2 tq2 []); try done; [lia| | | |by intros p ?%elem_of_nil|].
        * assert (measure max_depth q2 =
            length zs * (max_depth + 1 - cdepth c) + (length os * (max_depth + 1 - cdepth c) + measure max_depth q))
            as ->.
          { unfold q2, q1. replace (max_depth + 1 - cdepth c) with (max_depth + 2 - (cdepth c + 1)) by lia.
            destruct zs, os; done. }
          assert (length zs * (max_depth + 1 - cdepth c) + length os * (max_depth + 1 - cdepth c)
               ≤ length (ckeys c) * (max_depth + 1 - cdepth c)) by nia.
          replace (max_depth + 2 - cdepth c) with (Datatypes.S (max_depth + 1 - cdepth c)) in Hfuel by lia.
          nia.
        * intros c'. unfold q2, q1. destruct zs, os; rewrite ?elem_of_cons; naive_solver lia.
        * rewrite Hgs. unfold gets, q2, tq2, q1, tq1. destruct zs, os; cbn; by rewrite ?app_nil_r, <- ?app_assoc.
        * unfold q2, tq2, q1, tq1.
          destruct zs as [|z zs], os as [|o os]; cbn [zip zip_with]; rewrite !depth_cons, Hwp;
            cbn [cdepth ckeys]; intuition lia.
  Qed.

  Lemma leaf_map_lookup keys k :
    generate_leaf_map (V := V) keys !! k = if decide (k ∈ keys) then Some None else None.
  Proof.
    unfold generate_leaf_map.
    assert (∀ lm, foldl (λ m k, <[k := None]> m) lm keys !! k =
      if decide (k ∈ keys) then Some None else lm !! k) as Hg; [|by rewrite Hg].
    induction keys as [|k' keys IH]; intros lm; cbn [foldl].
    { by rewrite decide_False by apply not_elem_of_nil. }
    rewrite IH. destruct (decide (k ∈ keys)) as [Hin|Hni].
    - rewrite decide_True; [done|]. by right.
    - destruct (decide (k = k')) as [->|Hne].
      + rewrite lookup_insert, decide_True; [done|]. by left.
      + rewrite lookup_insert_ne by done. rewrite decide_False; [done|].
        intros [?|?]%elem_of_cons; done.
  Qed.

  (** The result of folding the visited leaves into the initial map. *)
  Lemma fold_ins_dom keys lm ps k : (∀ k, k ∈ keys → is_Some (lm !! k)) →
    (foldl (ins keys) lm ps !! k = None ↔ lm !! k = None).
  Proof.
    revert lm. induction ps as [|[k' e] ps IH]; intros lm Hk; [done|]. cbn [foldl].
    assert (∀ k, ins keys lm (k', e) !! k = None ↔ lm !! k = None) as Hi.
    { intros k0. unfold ins. simpl. destruct (decide (k' ∈ keys)) as [Hin|]; [|done].
      destruct (decode e); [|done|done]. destruct (decide (k' = k0)) as [->|].
      - rewrite lookup_insert. destruct (Hk k0 Hin) as [? ->]. done.
      - by rewrite lookup_insert_ne. }
    rewrite IH; [apply Hi|]. intros k0 Hk0. apply not_eq_None_Some. rewrite Hi.
    apply not_eq_None_Some. by apply Hk.
  Qed.
  Lemma fold_ins_sound keys lm ps k v : foldl (ins keys) lm ps !! k = Some (Some v) →
    lm !! k = Some (Some v) ∨ ∃ e, (k, e) ∈ ps ∧ decode e = Ok v.
  Proof.
    revert lm. induction ps as [|[k' e] ps IH]; intros lm; [by left|]. cbn [foldl].
    intros [Hl|(e' & Hin & He)]%IH.
    - unfold ins in Hl. simpl in Hl. destruct (decide (k' ∈ keys)); [|by left].
      destruct (decode e) as [v'| |] eqn:He; [|by left|by left].
      apply lookup_insert_Some in Hl as [[-> [= ->]]|[_ ?]]; [|by left].
      right. exists e. split; [by left|done].
    - right. exists e'. split; [by right|done].
  Qed.
  Lemma fold_ins_complete keys lm ps k e v : k ∈ keys → decode e = Ok v →
    (∀ e', (k, e') ∈ ps → e' = e) → (k, e) ∈ ps ∨ lm !! k = Some (Some v) →
    foldl (ins keys) lm ps !! k = Some (Some v).
  Proof.
    intros Hk He. revert lm. induction ps as [|[k' e'] ps IH]; intros lm Hu.
    { intros [Hin|?]; [by apply elem_of_nil in Hin|done]. }
    intros Hin. cbn [foldl]. apply IH; [intros; apply Hu; by right|].
    destruct Hin as [[[= <- <-]|Hin]%elem_of_cons|Hl]; [right|by left|right].
    - unfold ins. simpl. rewrite decide_True by done. rewrite He. by rewrite lookup_insert.
    - unfold ins. simpl. destruct (decide (k' ∈ keys)); [|done].
      destruct (decide (k' = k)) as [->|].
      + rewrite (Hu e' ltac:(by left)), He. by rewrite lookup_insert.
      + destruct (decode e'); [|done|done]. by rewrite lookup_insert_ne.
  Qed.

  (** What a read of [ks] can say about a key: every binding it reports is in
      the tree; and it reports all of them when the batch is benign. *)
  Definition get_sound t ks (lm : gmap (arr n) (option V)) : Prop :=
    (∀ k, lm !! k = None ↔ k ∉ ks) ∧
    (∀ k v, lm !! k = Some (Some v) → ∃ e, (k, e) ∈ tleaves t ∧ decode e = Ok v).
  Definition dec_opt (o : option bytes) : option V :=
    match o with Some e => match decode e with Ok v => Some v | _ => None end | None => None end.

  Theorem get_wp t ks s : stored H (b_vis B s) t → tpwf t →
    wp (get decode max_depth (troot H t) ks)
      (λ lm s', s' = s ∧ get_sound t ks lm ∧
         (twf t → mild_get (tmap t) (sort_keys ks) →
            ∀ k, k ∈ ks → lm !! k = Some (dec_opt (tmap t !! k))) ∧
         wdep t (sort_keys ks) ≤ max_depth)
      (λ er s', s' = s ∧
         ((er = "Depth of merkle tree exceeded" ∧ max_depth < wdep t (sort_keys ks)) ∨
          ∃ k e, (k, e) ∈ tleaves t ∧ decode e = Err er)) s.
  Proof.
    intros Hst Hw. unfold get. destruct (decide (ks = [])) as [->|Hne].
    { cbn. split_and!; [done| | |].
      - split; [intros k; rewrite lookup_empty; split; [intros _; apply not_elem_of_nil|done]|].
        intros k v. by rewrite lookup_empty.
      - by intros _ _ k ?%elem_of_nil.
      - destruct t; simpl; lia. }
    assert (∀ A (a b : A), match ks with [] => a | _ => b end = b) as Hm by (by destruct ks).
    rewrite Hm. clear Hm.
    pose proof (stored_root _ _ _ Hst) as Hr. apply has_lookup in Hr as [rf Hr].
    cbn [get_node mbind prog_bind pbind Logic.wp]. rewrite Hr.
    set (keys := sort_keys ks).
    assert (keys ≠ []) as Hne'.
    { intros Hnil. apply Hne. apply length_zero_iff_nil. rewrite <- sort_keys_length.
      unfold keys in Hnil. by rewrite Hnil. }
    pose proof (sort_keys_sorted ks) as Hso. fold keys in Hso.
    eapply wp_mono; [| |eapply (get_loop_wp keys _ _ _ [t])].
    - intros lm s' (-> & -> & Hdecs & Hwd). split; [done|]. unfold gets. cbn [zip_with ckeys mjoin list_join].
      unfold gets in Hdecs. cbn [zip_with ckeys mjoin list_join] in Hdecs.
      rewrite app_nil_r in *. set (lm0 := generate_leaf_map ks).
      assert (∀ k, k ∈ keys ↔ k ∈ ks) as Hk by (intros k; apply elem_of_sort_keys).
      assert (∀ k, k ∈ keys → is_Some (lm0 !! k)) as Hlm0.
      { intros k Hin%Hk. unfold lm0. rewrite leaf_map_lookup, decide_True by done. eauto. }
      split_and!; [| |by apply (Hwd _ _ ltac:(by left))].
      + split.
        * intros k. rewrite fold_ins_dom by done. unfold lm0. rewrite leaf_map_lookup.
          destruct (decide (k ∈ ks)); split; done.
        * intros k v [Hl|(e & Hin & He)]%fold_ins_sound.
          { unfold lm0 in Hl. rewrite leaf_map_lookup in Hl. by destruct (decide (k ∈ ks)). }
          exists e. split; [|done]. by eapply wget_elem.
      + intros Hwf Hh k Hkin.
        destruct (tmap t !! k) as [e|] eqn:Hkm.
        * apply tmap_lookup in Hkm; [|done].
          assert ((k, e) ∈ wget t keys) as Hg.
          { apply wget_mild; try done. by apply Hk. }
          destruct (Hdecs (k, e) Hg) as [v Hv]. simpl in Hv. unfold dec_opt. rewrite Hv.
          eapply fold_ins_complete; [by apply Hk|done| |by left].
          intros e' He'%wget_elem. apply tmap_lookup in He', Hkm; [|done|done]. congruence.
        * simpl. assert (is_Some (foldl (ins keys) lm0 (wget t keys) !! k)) as [[v|] Hs].
          { apply not_eq_None_Some. rewrite fold_ins_dom by done. apply not_eq_None_Some, Hlm0.
            by apply Hk. }
          -- exfalso. apply fold_ins_sound in Hs as [Hl|(e & Hin & He)].
             { unfold lm0 in Hl. rewrite leaf_map_lookup in Hl. by destruct (decide (k ∈ ks)). }
             apply wget_elem in Hin. apply tmap_lookup in Hin; [|done]. congruence.
          -- done.
    - intros er s' (-> & [(-> & c & t' & Hin & Hd)|(p & Hin & He)]); (split; [done|]).
      + left. split; [done|]. apply elem_of_list_singleton in Hin as [= -> ->]. done.
      + right. unfold gets in Hin. cbn [zip_with ckeys mjoin list_join] in Hin. rewrite app_nil_r in Hin.
        destruct p as [k e]. exists k, e. split; [by eapply wget_elem|done].
    - done.
    - constructor; [|done]. by unfold gcellok.
    - unfold traverse_fuel, measure. cbn. lia.
    - intros c ->%elem_of_list_singleton. simpl. lia.
  Qed.
End Get.
