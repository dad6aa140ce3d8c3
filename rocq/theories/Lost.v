(** * Reading from databases with any history *)
From Coq Require Import Strings.Byte NArith.
From stdpp Require Import prelude countable gmap sorting strings.
From Verif Require Import Model Spec Bits Util Trie Store Logic Build Evol Route Reads Insert Update Safe Get Hist Claims RefCount Live Struct Weak
  Total Machine Counts Need Cost Regrow Wild.

Local Open Scope nat_scope.

(** ** Two databases *)
Section Two.
  Context {n : nat} (B1 B2 : backend n) (H : list bytes → arr n).
  Context {V : Type} (enc : V → res bytes) (dec : bytes → res V).

  Lemma get_one_loop_agree D1 D2 f1 f2 k d1 d2 fl l s1 s2 v1 v2 : agree (b_vis B1 s1) (b_vis B2 s2) →
    out B1 H (get_one_loop dec D1 f1 k d1 fl l) s1 = ROk (Some v1) →
    out B2 H (get_one_loop dec D2 f2 k d2 fl l) s2 = ROk (Some v2) → v1 = v2.
  Proof.
    intros Ha. unfold out. revert f2 d1 d2 fl l. induction f1 as [|f1 IH]; intros f2 d1 d2 fl l; [done|].
    destruct f2 as [|f2]; [done|]. cbn [get_one_loop].
    destruct (D1 <? d1); [done|]. destruct (D2 <? d2); [done|].
    cbn [get_node mbind prog_bind pbind run].
    destruct (b_vis B1 s1 !! l) as [nd1|] eqn:H1; [|done]. destruct (b_vis B2 s2 !! l) as [nd2|] eqn:H2; [|done].
    rewrite <- (Ha l nd1 nd2 H1 H2). destruct (var nd1) as [c zero one si bk|lk ld|e].
    - destruct fl; [done|]. destruct (calc_min_split_index [k] bk) as [m| |]; cbn [lift mbind prog_bind pbind run]; [|done|done].
      destruct (check_descendants [k] si bk m) as [[|x xs]| |]; cbn [lift mbind prog_bind pbind run]; try done.
      destruct (choose_zero k si) as [z| |]; cbn [lift mbind prog_bind pbind run]; try done. apply IH.
    - destruct fl; [done|]. destruct (decide (lk = k)); [apply IH|done].
    - destruct (negb fl); [done|]. destruct (dec e); cbn; try done. congruence.
  Qed.
  Lemma gen_proof_loop_agree D1 D2 f1 f2 k d1 d2 fl acc l s1 s2 p1 p2 : agree (b_vis B1 s1) (b_vis B2 s2) →
    out B1 H (gen_proof_loop D1 f1 k d1 fl acc l) s1 = ROk p1 →
    out B2 H (gen_proof_loop D2 f2 k d2 fl acc l) s2 = ROk p2 → p1 = p2.
  Proof.
    intros Ha. unfold out. revert f2 d1 d2 fl acc l. induction f1 as [|f1 IH]; intros f2 d1 d2 fl acc l; [done|].
    destruct f2 as [|f2]; [done|]. cbn [gen_proof_loop].
    destruct (D1 <? d1); [done|]. destruct (D2 <? d2); [done|].
    cbn [get_node mbind prog_bind pbind run].
    destruct (b_vis B1 s1 !! l) as [nd1|] eqn:H1; [|done]. destruct (b_vis B2 s2 !! l) as [nd2|] eqn:H2; [|done].
    rewrite <- (Ha l nd1 nd2 H1 H2). destruct (var nd1) as [c zero one si bk|lk ld|e].
    - destruct fl; [done|]. destruct (calc_min_split_index [k] bk) as [m| |]; cbn [lift mbind prog_bind pbind run]; [|done|done].
      destruct (check_descendants [k] si bk m) as [[|x xs]| |]; cbn [lift mbind prog_bind pbind run]; try done.
      destruct (choose_zero k si) as [z| |]; cbn [lift mbind prog_bind pbind run]; try done. destruct z; apply IH.
    - destruct fl; [done|]. destruct (decide (lk = k)); [|done].
      cbn [hash mbind prog_bind pbind run].
      match goal with |- context [gen_proof_loop D1 f1 k (d1 + 1) true ?a ld] =>
        specialize (IH f2 (d1 + 1) (d2 + 1) true a ld) end.
      destruct (run B1 H (gen_proof_loop D1 f1 k _ true _ ld) s1) as [[o1 ?] ?],
        (run B2 H (gen_proof_loop D2 f2 k _ true _ ld) s2) as [[o2 ?] ?]. exact IH.
    - destruct (negb fl); [done|]. cbn. congruence.
  Qed.
End Two.

Section TwoWild.
  Context {n : nat} (Hn : 0 < n) (B1 B2 : backend n) {HB1 : BackendOk B1} {HB2 : BackendOk B2} (H : list bytes → arr n).
  Context {V : Type} (enc : V → res bytes) (dec : bytes → res V).

  Lemma wild_agree st1 st2 lg1 lg2 : wild B1 H enc dec st1 lg1 → wild B2 H enc dec st2 lg2 →
    no_collision H (lg1 ++ lg2) → agree (b_vis B1 st1) (b_vis B2 st2).
  Proof using Hn HB1 HB2.
    intros H1 H2 Hc. set (L := lg1 ++ lg2) in *.
    assert (wgood B1 H L st1) as G1.
    { eapply (wild_inv Hn); [done..|]. intros x ?. apply elem_of_app. by left. }
    assert (wgood B2 H L st2) as G2.
    { eapply (wild_inv Hn); [done..|]. intros x ?. apply elem_of_app. by right. }
    eapply (shallow_agree H (λ x, x ∈ L) Hc); [exact (wgood_vis B1 H L st1 G1)|exact (wgood_vis B2 H L st2 G2)].
  Qed.
  Theorem wild_get_one st1 st2 lg1 lg2 D1 D2 r k v1 v2 : wild B1 H enc dec st1 lg1 → wild B2 H enc dec st2 lg2 →
    no_collision H (lg1 ++ lg2) →
    out B1 H (get_one dec D1 r k) st1 = ROk (Some v1) → out B2 H (get_one dec D2 r k) st2 = ROk (Some v2) → v1 = v2.
  Proof using Hn HB1 HB2.
    intros H1 H2 Hc. unfold get_one. apply get_one_loop_agree. by eapply wild_agree.
  Qed.
  Theorem wild_prove st1 st2 lg1 lg2 D1 D2 r k p1 p2 : wild B1 H enc dec st1 lg1 → wild B2 H enc dec st2 lg2 →
    no_collision H (lg1 ++ lg2) →
    out B1 H (generate_inclusion_proof D1 r k) st1 = ROk p1 → out B2 H (generate_inclusion_proof D2 r k) st2 = ROk p2 →
    p1 = p2.
  Proof using Hn HB1 HB2.
    intros H1 H2 Hc. unfold generate_inclusion_proof. apply gen_proof_loop_agree. by eapply wild_agree.
  Qed.
  Theorem wild_insert_same st1 st2 lg1 lg2 D1 D2 prev ks vs r1 r2 :
    wild B1 H enc dec st1 lg1 → wild B2 H enc dec st2 lg2 →
    no_collision H ((lg1 ++ hlog B1 H (insert enc D1 prev ks vs) st1) ++ (lg2 ++ hlog B2 H (insert enc D2 prev ks vs) st2)) →
    out B1 H (insert enc D1 prev ks vs) st1 = ROk r1 → out B2 H (insert enc D2 prev ks vs) st2 = ROk r2 → r1 = r2.
  Proof using Hn HB1 HB2.
    intros H1 H2 Hc. set (L := (lg1 ++ _) ++ _) in *.
    assert (∀ x, x ∈ lg1 → x ∈ L) as HL1 by (intros x ?; unfold L; rewrite !elem_of_app; tauto).
    assert (∀ x, x ∈ lg2 → x ∈ L) as HL2 by (intros x ?; unfold L; rewrite !elem_of_app; tauto).
    pose proof (wild_inv Hn B1 H enc dec L st1 lg1 H1 Hc HL1) as G1.
    pose proof (wild_inv Hn B2 H enc dec L st2 lg2 H2 Hc HL2) as G2.
    eapply (sim_out B1 B2 H eq (wgood B1 H L) (wgood B2 H L)); [|apply (insert_sim enc D1 D2)| |].
    - intros s1 s2 Hs1 Hs2. eapply (shallow_agree H (λ x, x ∈ L) Hc); [exact (wgood_vis B1 H L s1 Hs1)|exact (wgood_vis B2 H L s2 Hs2)].
    - pose proof (wgood_call Hn B1 H enc dec L (CInsert D1 prev ks vs) st1 Hc) as Hs.
      destruct (fin_exec B1 H enc dec D1 prev ks vs st1) as [_ Hl]. rewrite Hl in Hs. rewrite Forall_forall in Hs |- *.
      intros s Hin. apply Hs; [|done|by apply (states_sub B1 H)]. intros x ?. unfold L. rewrite !elem_of_app. tauto.
    - pose proof (wgood_call Hn B2 H enc dec L (CInsert D2 prev ks vs) st2 Hc) as Hs.
      destruct (fin_exec B2 H enc dec D2 prev ks vs st2) as [_ Hl]. rewrite Hl in Hs. rewrite Forall_forall in Hs |- *.
      intros s Hin. apply Hs; [|done|by apply (states_sub B2 H)]. intros x ?. unfold L. rewrite !elem_of_app. tauto.
  Qed.
End TwoWild.

(** ** Reads of a tree of which nodes may be missing *)
Section LostRun.
  Context {n : nat} (Hn : 0 < n) (B : backend n) (H : list bytes → arr n) (S : list bytes → Prop) (Hinj : inj_on H S).
  Context {V : Type} (dec : bytes → res V) (Hdec : ∀ e, dec e ≠ Pan) (D : nat).
  Implicit Types (t l r : trie n) (k : arr n) (m : db n) (s : b_st B) (o : obj n).
  (** A node that a search of [k] visits is missing. *)
  Fixpoint lost m t k : bool :=
    match m !! troot H t with
    | None => true
    | Some _ =>
        match t with
        | TLeaf k' e => if decide (k' = k) then negb (bool_decide (is_Some (m !! dloc H k' e))) else false
        | TNode l r =>
            if decide (tsplit l r ≤ klcp k (tmin l)) then if bit k (tsplit l r) then lost m r k else lost m l k
            else false
        end
    end.
  Lemma get_one_lost fuel k d t s : shallow H S (b_vis B s) → Forall S (tpre H t) → tpwf t →
    D + 2 ≤ fuel + d → d + tneed t k ≤ D →
    out B H (get_one_loop dec D fuel k d false (troot H t)) s =
      if lost (b_vis B s) t k then ROk None
      else match tlookup t k with
           | Some e => match dec e with Ok v => ROk (Some v) | Err e => RErr e | Pan => RPanic end
           | None => ROk None
           end.
  Proof using Hn Hinj.
    intros Hs. unfold out. revert fuel d. induction t as [k' e|l IHl r IHr]; intros fuel d Hp Hw Hf Hd.
    - destruct fuel as [|fuel]; [lia|]. cbn [get_one_loop tneed tlookup troot lost] in *.
      destruct (Nat.ltb_spec D d) as [Hlt|_]; [lia|].
      cbn [get_node mbind prog_bind pbind run].
      destruct (b_vis B s !! lloc H k' e) as [nd|] eqn:Hl; [|done].
      destruct (shallow_at H S Hinj _ (OT (TLeaf k' e)) nd Hs Hp Hl) as [-> _]. cbn [ovar tvar].
      destruct (decide (k' = k)) as [->|Hne]; [|done].
      destruct fuel as [|fuel]; [lia|]. cbn [get_one_loop]. destruct (Nat.ltb_spec D (d + 1)) as [Hlt|_]; [lia|].
      cbn [get_node mbind prog_bind pbind run].
      destruct (b_vis B s !! dloc H k e) as [nd'|] eqn:Hl'; [|done].
      assert (opre_ok H S (OD k e)) as Hp'.
      { unfold opre_ok. cbn. cbn in Hp. rewrite !Forall_cons in *. tauto. }
      destruct (shallow_at H S Hinj _ (OD k e) nd' Hs Hp' Hl') as [-> _]. cbn. by destruct (dec e).
    - destruct fuel as [|fuel]; [lia|]. pose proof Hw as (Hwl & Hwr & Hlt). pose proof (tsplit_lt l r Hlt) as Hs8.
      pose proof Hp as Hp'. cbn [tpre] in Hp'. apply Forall_cons in Hp' as [_ [Hpl Hpr]%Forall_app].
      cbn [get_one_loop tneed tlookup lost] in *. set (rt := troot H (TNode l r)) in *.
      destruct (Nat.ltb_spec D d) as [Hmd|_]; [lia|].
      cbn [get_node mbind prog_bind pbind run].
      destruct (b_vis B s !! rt) as [nd|] eqn:Hl; [|done].
      destruct (shallow_at H S Hinj _ (OT (TNode l r)) nd Hs Hp Hl) as [-> _]. cbn [ovar tvar].
      destruct (single_desc Hn k (tmin l) (tsplit l r)) as (m & Hm & Hc); [lia|].
      rewrite Hm. cbn [lift mbind prog_bind pbind]. rewrite Hc. cbn [lift mbind prog_bind pbind].
      destruct (decide (tsplit l r ≤ klcp k (tmin l))) as [Hag|Hag]; [|done].
      rewrite choose_zero_ok by done. cbn [lift mbind prog_bind pbind].
      destruct (bit k (tsplit l r)); cbn [negb].
      + by rewrite IHr by (done || lia).
      + by rewrite IHl by (done || lia).
  Qed.
  Lemma gen_proof_lost fuel k d acc t s : shallow H S (b_vis B s) → Forall S (tpre H t) → tpwf t →
    D + 2 ≤ fuel + d → d + tneed t k ≤ D →
    out B H (gen_proof_loop D fuel k d false acc (troot H t)) s =
      if lost (b_vis B s) t k then RErr "Failed to find node"
      else match tlookup t k with
           | Some e => ROk (reverse (acc ++ tproof H t k))
           | None => RErr "Key not found in tree"
           end.
  Proof using Hn Hinj.
    intros Hs. unfold out. revert fuel d acc. induction t as [k' e|l IHl r IHr]; intros fuel d acc Hp Hw Hf Hd.
    - destruct fuel as [|fuel]; [lia|]. cbn [gen_proof_loop tneed tlookup troot lost] in *.
      destruct (Nat.ltb_spec D d) as [Hlt|_]; [lia|].
      cbn [get_node mbind prog_bind pbind run].
      destruct (b_vis B s !! lloc H k' e) as [nd|] eqn:Hl; [|done].
      destruct (shallow_at H S Hinj _ (OT (TLeaf k' e)) nd Hs Hp Hl) as [-> _]. cbn [ovar tvar].
      destruct (decide (k' = k)) as [->|Hne]; [|done].
      cbn [hash mbind prog_bind pbind run].
      destruct fuel as [|fuel]; [lia|]. cbn [gen_proof_loop]. destruct (Nat.ltb_spec D (d + 1)) as [Hlt|_]; [lia|].
      cbn [get_node mbind prog_bind pbind run].
      destruct (b_vis B s !! dloc H k e) as [nd'|] eqn:Hl'; [|done].
      assert (opre_ok H S (OD k e)) as Hp'.
      { unfold opre_ok. cbn. cbn in Hp. rewrite !Forall_cons in *. tauto. }
      destruct (shallow_at H S Hinj _ (OD k e) nd' Hs Hp' Hl') as [-> _].
      cbn [ovar negb hash mbind prog_bind pbind run mret prog_ret fst tproof bool_decide].
      rewrite bool_decide_eq_true_2 by (by eexists). cbn. by rewrite <- app_assoc.
    - destruct fuel as [|fuel]; [lia|]. pose proof Hw as (Hwl & Hwr & Hlt). pose proof (tsplit_lt l r Hlt) as Hs8.
      pose proof Hp as Hp'. cbn [tpre] in Hp'. apply Forall_cons in Hp' as [_ [Hpl Hpr]%Forall_app].
      cbn [gen_proof_loop tneed tlookup lost tproof] in *. set (rt := troot H (TNode l r)) in *.
      destruct (Nat.ltb_spec D d) as [Hmd|_]; [lia|].
      cbn [get_node mbind prog_bind pbind run].
      destruct (b_vis B s !! rt) as [nd|] eqn:Hl; [|done].
      destruct (shallow_at H S Hinj _ (OT (TNode l r)) nd Hs Hp Hl) as [-> _]. cbn [ovar tvar].
      destruct (single_desc Hn k (tmin l) (tsplit l r)) as (m & Hm & Hc); [lia|].
      rewrite Hm. cbn [lift mbind prog_bind pbind]. rewrite Hc. cbn [lift mbind prog_bind pbind].
      destruct (decide (tsplit l r ≤ klcp k (tmin l))) as [Hag|Hag]; [|done].
      rewrite choose_zero_ok by done. cbn [lift mbind prog_bind pbind].
      destruct (bit k (tsplit l r)); cbn [negb].
      + rewrite IHr by (done || lia). by rewrite <- app_assoc.
      + rewrite IHl by (done || lia). by rewrite <- app_assoc.
  Qed.
  (** For a key that is present, these are the nodes on the way to it. *)
  Lemma osub_node o l r : osub o (TNode l r) ↔ o = OT (TNode l r) ∨ osub o l ∨ osub o r.
  Proof using.
    destruct o as [p|k e]; cbn [osub]; split.
    - inversion 1; subst; auto.
    - intros [[= ->]|[?|?]]; [apply sub_refl|by apply sub_l|by apply sub_r].
    - inversion 1; subst; auto.
    - intros [[=]|[?|?]]; [by apply sub_l|by apply sub_r].
  Qed.
  Lemma okeys_sub o t k : osub o t → k ∈ okeys o → k ∈ tkeys t.
  Proof using.
    destruct o as [p|k' e]; cbn [osub okeys]; intros Hs Hk; [by eapply subtrie_keys|].
    apply elem_of_list_singleton in Hk as ->. eapply subtrie_keys; [exact Hs|by left].
  Qed.
  Lemma lost_spec m t k : twf t → k ∈ tkeys t →
    lost m t k = false ↔ ∀ o, osub o t → k ∈ okeys o → is_Some (m !! oloc H o).
  Proof using.
    induction t as [k' e|l IHl r IHr]; intros Hw Hk.
    - apply elem_of_list_singleton in Hk. cbn in Hk. subst k'. cbn [lost troot]. rewrite decide_True by done. split.
      + destruct (m !! lloc H k e) as [nd|] eqn:Hl; [|done]. intros Hd%negb_false_iff%bool_decide_eq_true_1.
        intros [p|k' e'] Ho _; cbn [osub oloc] in *; inversion Ho; subst; [|done]. cbn. by rewrite Hl.
      + intros Ho. destruct (Ho (OT (TLeaf k e))) as [nd Hl]; [apply sub_refl|by left|]. cbn in Hl. rewrite Hl.
        apply negb_false_iff, bool_decide_eq_true_2. apply (Ho (OD k e)); [apply sub_refl|by left].
    - cbn [lost]. pose proof (twf_agree l r k Hw Hk) as Hag. rewrite decide_True by done.
      pose proof Hw as (Hl & Hr & _). pose proof Hk as Hk'. rewrite tkeys_node, elem_of_app in Hk'.
      set (x := if bit k (tsplit l r) then lost m r k else lost m l k).
      assert (x = false ↔ ∀ o, osub o l ∨ osub o r → k ∈ okeys o → is_Some (m !! oloc H o)) as Hx.
      { unfold x. destruct Hk' as [Hk'|Hk'].
        - destruct (twf_left l r k Hw Hk') as [_ Hb]. rewrite Hb, IHl by done. split; [|by auto].
          intros Ho o [Hs|Hs] Hko; [by auto|]. exfalso. pose proof (okeys_sub o r k Hs Hko) as Hkr.
          destruct (twf_right l r k Hw Hkr) as (_ & _ & ?). congruence.
        - destruct (twf_right l r k Hw Hk') as (_ & _ & Hb). rewrite Hb, IHr by done. split; [|by auto].
          intros Ho o [Hs|Hs] Hko; [|by auto]. exfalso. pose proof (okeys_sub o l k Hs Hko) as Hkl.
          destruct (twf_left l r k Hw Hkl) as (_ & ?). congruence. }
      split.
      + destruct (m !! troot H (TNode l r)) as [nd|] eqn:Hm; [|done]. rewrite Hx. intros Ho o [->|Hs]%osub_node Hko; [|by auto].
        cbn [oloc]. rewrite Hm. by eexists.
      + intros Ho. destruct (Ho (OT (TNode l r))) as [nd Hm]; [apply sub_refl|done|]. cbn [oloc] in Hm. rewrite Hm.
        apply Hx. intros o Hs. apply Ho. apply osub_node. by right.
  Qed.
End LostRun.

Section LostGet.
  Context {n : nat} (Hn : 0 < n) (B : backend n) (H : list bytes → arr n) (S : list bytes → Prop) (Hinj : inj_on H S).
  Context {V : Type} (dec : bytes → res V) (Hdec : ∀ e, dec e ≠ Pan) (D : nat).
  Context (s : b_st B) (Hs : shallow H S (b_vis B s)) (T : trie n).
  Implicit Types (t : trie n) (k : arr n) (c : cell (n := n)) (lm : gmap (arr n) (option V)).
  Notation wp := (wp B H (λ _, True) (λ _, True)).
  Definition lcell c : Prop := ∃ t, cloc c = troot H t ∧ var (cnode c) = tvar H t ∧ subtrie t T ∧ tpwf t ∧
    Forall S (tpre H t) ∧ ksorted (ckeys c) ∧ ckeys c ≠ [] ∧ cdepth c + tdepth t ≤ tdepth T ∧ cdepth c ≤ D + 1.
  Definition lok (keys : list (arr n)) lm lm' : Prop :=
    (∀ k, lm' !! k = None ↔ lm !! k = None) ∧
    ∀ k v, lm' !! k = Some (Some v) → lm !! k = Some (Some v) ∨ ∃ e, (k, e) ∈ tleaves T ∧ dec e = Ok v.
  Definition lerr (er : string) : Prop :=
    (er = "Depth of merkle tree exceeded" ∧ D < tdepth T) ∨ er = "Corrupt merkle tree: Failed to get leaf node from DB" ∨
    ∃ k e, (k, e) ∈ tleaves T ∧ dec e = Err er.
  Lemma lok_trans keys lm1 lm2 lm3 : lok keys lm1 lm2 → lok keys lm2 lm3 → lok keys lm1 lm3.
  Proof using.
    intros [H1 H2] [H3 H4]. split; [intros k; by rewrite H3|]. intros k v [Hk|?]%H4; [|by right]. by apply H2.
  Qed.
  Lemma push_lost q c0 t (ks : list (arr n)) : Forall lcell q → subtrie t T → tpwf t → Forall S (tpre H t) → ksorted ks →
    cdepth c0 + 1 + tdepth t ≤ tdepth T → cdepth c0 ≤ D →
    wp (push_cell_if_node q (cdepth c0) (troot H t) ks)
      (λ q' s', s' = s ∧ Forall lcell q' ∧ measure D q' ≤ length ks * (D + 1 - cdepth c0) + measure D q) (λ er _, lerr er) s.
  Proof using Hn Hs Hinj.
    intros Hq Hsub Hw Hp Hks Hd Hc. unfold push_cell_if_node. cbn [get_node mbind prog_bind pbind Logic.wp].
    destruct (b_vis B s !! troot H t) as [nd|] eqn:Hl; [|cbn [mret prog_ret Logic.wp]; split_and!; [done|done|apply Nat.le_add_l]].
    destruct (shallow_at H S Hinj _ (OT t) nd Hs Hp Hl) as [Hv _].
    destruct ks as [|k ks]; [cbn [mret prog_ret Logic.wp]; split_and!; [done|done|apply Nat.le_add_l]|].
    cbn [mret prog_ret Logic.wp]. split_and!; [done| |].
    - constructor; [|done]. exists t. cbn [cloc cnode ckeys cdepth]. split_and!; try done; lia.
    - rewrite measure_cons. cbn [ckeys cdepth]. replace (D + 2 - (cdepth c0 + 1)) with (D + 1 - cdepth c0) by lia. lia.
  Qed.
  Lemma get_loop_lost keys fuel lm q : ksorted keys → (∀ k, k ∈ keys → is_Some (lm !! k)) → Forall lcell q → measure D q ≤ fuel →
    wp (get_loop dec D fuel keys lm q) (λ lm' s', s' = s ∧ lok keys lm lm') (λ er _, lerr er) s.
  Proof using Hn Hdec Hs Hinj.
    intros Hkeys. revert lm q. induction fuel as [fuel IH] using lt_wf_ind. intros lm q Hlm Hq Hfuel.
    destruct q as [|c q].
    { destruct fuel; cbn; (split; [done|]); (split; [done|by left]). }
    apply Forall_cons in Hq as [Hc Hq]. destruct Hc as (t & Hcl & Hcv & Hsub & Hw & Hp & Hks & Hne & Hd & HD).
    rewrite measure_cons in Hfuel.
    assert (1 ≤ length (ckeys c)) as Hlen by (destruct (ckeys c); [done|simpl; lia]).
    assert (length (ckeys c) + measure D q ≤ fuel) as Hf1 by nia.
    destruct fuel as [|fuel]; [lia|]. cbn [get_loop].
    destruct (Nat.ltb_spec D (cdepth c)) as [Hgt|Hle].
    { cbn. left. split; [done|]. lia. }
    rewrite Hcv. destruct t as [lk le|l r]; cbn [tvar].
    - cbn [get_node mbind prog_bind pbind Logic.wp].
      destruct (b_vis B s !! dloc H lk le) as [nd|] eqn:Hl; [|by right; left].
      assert (opre_ok H S (OD lk le)) as Hp'.
      { unfold opre_ok. cbn. cbn in Hp. rewrite !Forall_cons in *. tauto. }
      destruct (shallow_at H S Hinj _ (OD lk le) nd Hs Hp' Hl) as [-> _]. cbn [ovar].
      assert ((lk, le) ∈ tleaves T) as Hin by (eapply subtrie_leaves; [exact Hsub|by left]).
      destruct (dec le) as [v|er|] eqn:He; [| |by apply Hdec in He].
      2:{ right. right. eauto. }
      cbn [lift mbind prog_bind pbind].
      pose proof (binary_search_spec keys lk Hkeys) as Hbs.
      destruct (binary_search keys lk) as [i|].
      + unfold index. rewrite Hbs. cbn [lift mbind prog_bind pbind].
        assert (lk ∈ keys) as Hlk by (by eapply elem_of_list_lookup_2).
        eapply wp_mono; [| |apply (IH fuel ltac:(lia) (<[lk := Some v]> lm) q)]; [| |..|done|lia].
        * intros lm' s' [-> Hok]. split; [done|]. eapply lok_trans; [|exact Hok]. split.
          -- intros k. destruct (decide (lk = k)) as [<-|]; [|by rewrite lookup_insert_ne].
             rewrite lookup_insert. destruct (Hlm lk Hlk) as [? ->]. done.
          -- intros k v' [[<- [= <-]]|[_ ?]]%lookup_insert_Some; [right; eauto|by left].
        * done.
        * intros k Hk. destruct (decide (lk = k)) as [<-|]; [rewrite lookup_insert; eauto|].
          rewrite lookup_insert_ne by done. by apply Hlm.
      + apply IH; [lia|done|done|lia].
    - pose proof Hw as (Hwl & Hwr & Hltlr). pose proof (tsplit_lt l r Hltlr) as Hs8.
      pose proof Hp as Hp'. cbn [tpre] in Hp'. apply Forall_cons in Hp' as [_ [Hpl Hpr]%Forall_app].
      destruct (node_desc_spec (ckeys c) (tsplit l r) (tmin l) Hn Hks Hne Hs8) as (mi & Hmi & Hcd & Hge & _).
      rewrite Hmi. cbn [lift mbind prog_bind pbind].
      set (ds := node_desc (ckeys c) (tsplit l r) (tmin l)) in *.
      rewrite Hcd. cbn [lift mbind prog_bind pbind].
      destruct (decide (ds = [])) as [HD0|HD0]; [rewrite HD0; apply IH; [lia|done|done|lia]|].
      destruct (node_split_app ds (tsplit l r) Hs8) as [Hsp Happ].
      assert (∀ A (a b : A), match ds with [] => a | _ => b end = b) as HDm by (intros A a b; by destruct ds).
      rewrite HDm. rewrite Hsp. cbn [lift mbind prog_bind pbind].
      destruct (node_split ds (tsplit l r)) as [zs os] eqn:Hzo. cbn [fst snd] in *.
      assert (ksorted ds) as HsD by (apply node_desc_sorted; done).
      assert (length ds ≤ length (ckeys c)) as HlD by (apply node_desc_length; done).
      rewrite <- Happ in HsD. apply StronglySorted_app_inv in HsD as (Hsz & Hso & _).
      assert (length zs + length os ≤ length (ckeys c)) as Hlzo by (by rewrite <- app_length, Happ).
      cbn [tdepth] in Hd.
      apply wp_bind. eapply wp_mono; [|intros er s' Hf; exact Hf|apply (push_lost q c r os)]; try done; [|..|lia].
      2:{ eapply subtrie_trans; [|exact Hsub]. apply sub_r, sub_refl. }
      intros q1 s' (-> & Hq1 & Hm1). cbn beta.
      apply wp_bind. eapply wp_mono; [|intros er s' Hf; exact Hf|apply (push_lost q1 c l zs)]; try done; [|..|lia].
      2:{ eapply subtrie_trans; [|exact Hsub]. apply sub_l, sub_refl. }
      intros q2 s' (-> & Hq2 & Hm2). cbn beta.
      apply IH; [lia|done|done|].
      assert (length zs * (D + 1 - cdepth c) + length os * (D + 1 - cdepth c)
               ≤ length (ckeys c) * (D + 1 - cdepth c)) by nia.
      replace (D + 2 - cdepth c) with (Datatypes.S (D + 1 - cdepth c)) in Hfuel by lia. nia.
  Qed.
End LostGet.

Section LostOut.
  Context {n : nat} (Hn : 0 < n) (B : backend n) (H : list bytes → arr n) (S : list bytes → Prop) (Hinj : inj_on H S).
  Context {V : Type} (dec : bytes → res V) (Hdec : ∀ e, dec e ≠ Pan) (D : nat).
  Lemma get_lost (s : b_st B) (T : trie n) (ks : list (arr n)) : shallow H S (b_vis B s) → Forall S (tpre H T) → tpwf T →
    match out B H (get dec D (troot H T) ks) s with
    | ROk lm => get_sound dec T ks lm
    | RErr er => lerr dec D T er
    | _ => False
    end.
  Proof using Hn Hdec Hinj.
    intros Hs Hp Hw.
    assert (∀ k, generate_leaf_map (V := V) ks !! k = None ↔ k ∉ ks) as Hdom.
    { intros k. rewrite leaf_map_lookup. by destruct (decide (k ∈ ks)). }
    assert (get_sound dec T ks (generate_leaf_map ks)) as H0.
    { split; [done|]. intros k v. rewrite leaf_map_lookup. by destruct (decide (k ∈ ks)). }
    destruct (decide (ks = [])) as [->|Hne]; [done|].
    assert (∀ A (a b : A), match ks with [] => a | _ => b end = b) as Hm by (by destruct ks).
    unfold get. rewrite Hm. clear Hm.
    unfold out. cbn [get_node mbind prog_bind pbind run].
    destruct (b_vis B s !! troot H T) as [nd|] eqn:Hl; [|done].
    destruct (shallow_at H S Hinj _ (OT T) nd Hs Hp Hl) as [Hv _].
    set (keys := sort_keys ks).
    assert (keys ≠ []) as Hne'.
    { intros Hnil. apply Hne. apply length_zero_iff_nil. rewrite <- sort_keys_length.
      unfold keys in Hnil. by rewrite Hnil. }
    pose proof (sort_keys_sorted ks) as Hso. fold keys in Hso.
    pose proof (get_loop_lost Hn B H S Hinj dec Hdec D s Hs T keys (traverse_fuel D keys) (generate_leaf_map ks)
      [Cell (troot H T) keys nd 0] Hso) as Hg.
    assert (∀ k, k ∈ keys → is_Some (generate_leaf_map (V := V) ks !! k)) as Hk.
    { intros k Hk. unfold keys in Hk. rewrite elem_of_sort_keys in Hk. rewrite leaf_map_lookup. rewrite decide_True; [by eexists|exact Hk]. }
    assert (Forall (lcell H S D T) [Cell (troot H T) keys nd 0]) as Hcells.
    { constructor; [|done]. exists T. cbn [cloc ckeys cnode cdepth]. split_and!; [done|done|apply sub_refl|done|done|done|done|lia|lia]. }
    specialize (Hg Hk Hcells).
    assert (measure D [Cell (troot H T) keys nd 0] ≤ traverse_fuel D keys) as Hm.
    { rewrite measure_cons. unfold traverse_fuel. cbn. lia. }
    specialize (Hg Hm). apply wp_run in Hg; [|done]. unfold out in Hg.
    destruct (run B H _ s) as [[[lm|er| |] s'] lg]; cbn in *; try done.
    destruct Hg as [_ [Hd Hv']]. split; [intros k; by rewrite Hd, Hdom|].
    intros k v [Hx|Hx]%Hv'; [|done]. rewrite leaf_map_lookup in Hx. by destruct (decide (k ∈ ks)).
  Qed.
End LostOut.

(** ** [get] of one key *)
Section LostOne.
  Context {n : nat} (Hn : 0 < n) (B : backend n) (H : list bytes → arr n) (S : list bytes → Prop) (Hinj : inj_on H S).
  Context {V : Type} (dec : bytes → res V) (D : nat).
  Implicit Types (t l r : trie n) (k : arr n) (m : db n) (s : b_st B) (o : obj n).
  (** What is found below a tree whose root is present: [None] if data is missing. *)
  Fixpoint gres m t k : option (option bytes) :=
    match t with
    | TLeaf k' e => if decide (is_Some (m !! dloc H k' e)) then Some (if decide (k' = k) then Some e else None) else None
    | TNode l r =>
        if decide (tsplit l r ≤ klcp k (tmin l)) then
          if bit k (tsplit l r) then if decide (is_Some (m !! troot H r)) then gres m r k else Some None
          else if decide (is_Some (m !! troot H l)) then gres m l k else Some None
        else Some None
    end.
  Definition gout (lm : gmap (arr n) (option V)) k (g : option (option bytes)) : outcome (gmap (arr n) (option V)) :=
    match g with
    | None => RErr "Corrupt merkle tree: Failed to get leaf node from DB"
    | Some None => ROk lm
    | Some (Some e) => match dec e with Ok v => ROk (<[k := Some v]> lm) | Err er => RErr er | Pan => RPanic end
    end.
  Lemma split_one k si : si < 8 * n → split_pairs [k] si = Ok (if bit k si then ([], [k]) else ([k], [])).
  Proof using. intros Hsi. unfold split_pairs. cbn. rewrite choose_zero_ok by done. by destruct (bit k si). Qed.
  Lemma get_loop_one fuel k d t nd lm s : shallow H S (b_vis B s) → Forall S (tpre H t) → tpwf t →
    (∀ k' e, (k', e) ∈ tleaves t → ∃ v, dec e = Ok v) →
    b_vis B s !! troot H t = Some nd → D + 1 ≤ fuel + d → d + tdepth t ≤ D →
    out B H (get_loop dec D fuel [k] lm [Cell (troot H t) [k] nd d]) s = gout lm k (gres (b_vis B s) t k).
  Proof using Hn Hinj.
    intros Hs. unfold out. revert fuel d nd. induction t as [k' e|l IHl r IHr]; intros fuel d nd Hp Hw Hdec Hl Hf Hd.
    - destruct fuel as [|fuel]; [lia|]. cbn [get_loop cdepth cnode ckeys cloc gres] in *.
      destruct (Nat.ltb_spec D d) as [Hlt|_]; [lia|].
      destruct (shallow_at H S Hinj _ (OT (TLeaf k' e)) nd Hs Hp Hl) as [-> _]. cbn [ovar tvar].
      cbn [get_node mbind prog_bind pbind run].
      destruct (b_vis B s !! dloc H k' e) as [nd'|] eqn:Hl'; [rewrite decide_True by (by eexists)|].
      2:{ rewrite decide_False by (intros [? ?]; done). done. }
      assert (opre_ok H S (OD k' e)) as Hp'.
      { unfold opre_ok. cbn. cbn in Hp. rewrite !Forall_cons in *. tauto. }
      destruct (shallow_at H S Hinj _ (OD k' e) nd' Hs Hp' Hl') as [-> _]. cbn [ovar].
      destruct (Hdec k' e) as [v Hv]; [by left|]. rewrite Hv. cbn [lift mbind prog_bind pbind].
      assert (ksorted [k]) as Hsk by repeat constructor.
      pose proof (binary_search_spec [k] k' Hsk) as Hbs. destruct (binary_search [k] k') as [i|].
      + assert (k' = k) as -> by (apply elem_of_list_lookup_2, elem_of_list_singleton in Hbs; done).
        rewrite decide_True by done. unfold index. rewrite Hbs. cbn [lift mbind prog_bind pbind gout]. rewrite Hv.
        by destruct fuel.
      + rewrite decide_False by (intros ->; apply Hbs; by left). cbn [gout]. by destruct fuel.
    - destruct fuel as [|fuel]; [lia|]. pose proof Hw as (Hwl & Hwr & Hlt). pose proof (tsplit_lt l r Hlt) as Hs8.
      pose proof Hp as Hp'. cbn [tpre] in Hp'. apply Forall_cons in Hp' as [_ [Hpl Hpr]%Forall_app].
      assert (∀ k' e, (k', e) ∈ tleaves l → ∃ v, dec e = Ok v) as Hdl.
      { intros k' e Hin. apply (Hdec k' e). cbn. apply elem_of_app. by left. }
      assert (∀ k' e, (k', e) ∈ tleaves r → ∃ v, dec e = Ok v) as Hdr.
      { intros k' e Hin. apply (Hdec k' e). cbn. apply elem_of_app. by right. }
      cbn [get_loop cdepth cnode ckeys cloc gres tdepth] in *. set (rt := troot H (TNode l r)) in *.
      destruct (Nat.ltb_spec D d) as [Hmd|_]; [lia|].
      destruct (shallow_at H S Hinj _ (OT (TNode l r)) nd Hs Hp Hl) as [-> _]. cbn [ovar tvar].
      destruct (single_desc Hn k (tmin l) (tsplit l r)) as (m & Hm & Hc); [lia|].
      rewrite Hm. cbn [lift mbind prog_bind pbind]. rewrite Hc. cbn [lift mbind prog_bind pbind].
      destruct (decide (tsplit l r ≤ klcp k (tmin l))) as [Hag|Hag]; [|by destruct fuel].
      rewrite split_one by done. cbn [lift mbind prog_bind pbind].
      unfold push_cell_if_node.
      destruct (bit k (tsplit l r)); cbn [fst snd get_node mbind prog_bind pbind run].
      + destruct (b_vis B s !! troot H r) as [ndr|] eqn:Hr; cbn [mret prog_ret get_node mbind prog_bind pbind run].
        * rewrite decide_True by (by eexists).
          destruct (b_vis B s !! troot H l); cbn [mret prog_ret get_node mbind prog_bind pbind run];
            by rewrite (IHr fuel (d + 1) ndr) by (done || lia).
        * rewrite decide_False by (intros [? ?]; done).
          destruct (b_vis B s !! troot H l); cbn [mret prog_ret get_node mbind prog_bind pbind run]; by destruct fuel.
      + destruct (b_vis B s !! troot H r); cbn [mret prog_ret get_node mbind prog_bind pbind run].
        * destruct (b_vis B s !! troot H l) as [ndl|] eqn:Hll; cbn [mret prog_ret get_node mbind prog_bind pbind run].
          -- rewrite decide_True by (by eexists). by rewrite (IHl fuel (d + 1) ndl) by (done || lia).
          -- rewrite decide_False by (intros [? ?]; done). by destruct fuel.
        * destruct (b_vis B s !! troot H l) as [ndl|] eqn:Hll; cbn [mret prog_ret get_node mbind prog_bind pbind run].
          -- rewrite decide_True by (by eexists). by rewrite (IHl fuel (d + 1) ndl) by (done || lia).
          -- rewrite decide_False by (intros [? ?]; done). by destruct fuel.
  Qed.
  Lemma get_one_key t k s : shallow H S (b_vis B s) → Forall S (tpre H t) → tpwf t →
    (∀ k' e, (k', e) ∈ tleaves t → ∃ v, dec e = Ok v) → tdepth t ≤ D →
    out B H (get dec D (troot H t) [k]) s =
      gout (generate_leaf_map [k]) k (if decide (is_Some (b_vis B s !! troot H t)) then gres (b_vis B s) t k else Some None).
  Proof using Hn Hinj.
    intros Hs Hp Hw Hdec Hd. unfold get. change (sort_keys [k]) with [k]. unfold out. cbn [get_node mbind prog_bind pbind run].
    destruct (b_vis B s !! troot H t) as [nd|] eqn:Hl.
    - rewrite decide_True by (by eexists). apply (get_loop_one _ k 0 t nd); try done. unfold traverse_fuel. cbn. lia.
    - by rewrite decide_False by (intros [? ?]; done).
  Qed.
  Lemma gres_spec m t k e : twf t → tlookup t k = Some e → k ∈ tkeys t → is_Some (m !! troot H t) →
    ((∀ p, subtrie p t → k ∈ tkeys p → is_Some (m !! troot H p)) →
       gres m t k = if decide (is_Some (m !! dloc H k e)) then Some (Some e) else None) ∧
    ((∃ p, subtrie p t ∧ k ∈ tkeys p ∧ m !! troot H p = None) → gres m t k = Some None).
  Proof using.
    induction t as [k' e'|l IHl r IHr]; intros Hw Hlk Hk Hrt.
    - cbn in Hlk, Hk. apply elem_of_list_singleton in Hk as <-. rewrite decide_True in Hlk by done. injection Hlk as <-.
      cbn [gres]. rewrite (decide_True (P := k = k)) by done. split; [done|].
      intros (p & Hp & _ & Hn'). inversion Hp; subst. destruct Hrt as [? ?]. congruence.
    - pose proof (twf_agree l r k Hw Hk) as Hag. pose proof Hw as (Hwl & Hwr & _). cbn [gres tlookup] in *.
      rewrite decide_True in Hlk by done. rewrite (decide_True (P := tsplit l r ≤ klcp k (tmin l))) by done. rewrite tkeys_node, elem_of_app in Hk.
      destruct Hk as [Hk|Hk].
      + destruct (twf_left l r k Hw Hk) as [_ Hb]. rewrite Hb in Hlk. rewrite Hb.
        assert (∀ p, subtrie p r → k ∉ tkeys p) as Hnr.
        { intros p Hp Hkp. apply (subtrie_keys p r k Hp) in Hkp. destruct (twf_right l r k Hw Hkp) as (_ & _ & ?). congruence. }
        destruct (decide (is_Some (m !! troot H l))) as [Hs|Hs].
        * destruct (IHl Hwl Hlk Hk Hs) as [H1 H2]. split.
          -- intros Hall. apply H1. intros p Hp. apply Hall. by apply sub_l.
          -- intros (p & Hp & Hkp & Hm). apply H2. exists p. inversion Hp; subst; [destruct Hrt as [? ?]; congruence|done|].
             by apply Hnr in Hkp.
        * split; [|done]. intros Hall. exfalso. apply Hs, Hall; [apply sub_l, sub_refl|done].
      + destruct (twf_right l r k Hw Hk) as (_ & _ & Hb). rewrite Hb in Hlk. rewrite Hb.
        assert (∀ p, subtrie p l → k ∉ tkeys p) as Hnl.
        { intros p Hp Hkp. apply (subtrie_keys p l k Hp) in Hkp. destruct (twf_left l r k Hw Hkp) as (_ & ?). congruence. }
        destruct (decide (is_Some (m !! troot H r))) as [Hs|Hs].
        * destruct (IHr Hwr Hlk Hk Hs) as [H1 H2]. split.
          -- intros Hall. apply H1. intros p Hp. apply Hall. by apply sub_r.
          -- intros (p & Hp & Hkp & Hm). apply H2. exists p. inversion Hp; subst; [destruct Hrt as [? ?]; congruence| |done].
             by apply Hnl in Hkp.
        * split; [|done]. intros Hall. exfalso. apply Hs, Hall; [apply sub_r, sub_refl|done].
  Qed.
End LostOne.

(** ** A tree and a database with any history *)
Section LostWild.
  Context {n : nat} (Hn : 0 < n) (B0 B : backend n) {HB0 : BackendOk B0} {HB : BackendOk B} (H : list bytes → arr n).
  Context {V : Type} (enc : V → res bytes) (dec : bytes → res V) (Hcodec : codec_ok enc dec).
  Implicit Types (lg : list (list bytes)) (M : gmap (arr n) V) (k r : arr n).
  Notation Sof L := (λ x, x ∈ L).

  Lemma lost_setup st0 lg0 r M st lg : live B0 H enc dec st0 lg0 r M → wild B H enc dec st lg → no_collision H (lg0 ++ lg) →
    ∃ t, r = troot H t ∧ twf t ∧ stored H (b_vis B0 st0) t ∧ Forall (Sof (lg0 ++ lg)) (tpre H t) ∧ encs enc M (tmap t) ∧
      shallow H (Sof (lg0 ++ lg)) (b_vis B st).
  Proof using Hn Hcodec HB0 HB.
    intros Hl Hw Hc.
    destruct (live_handle Hn B0 H enc dec Hcodec st0 lg0 r M Hl) as (t & Hr & Hwf & Hst & Hp & He).
    { intros x y Hx Hy. apply Hc; apply elem_of_app; by left. }
    cbn [fst snd] in *. exists t. split_and!; try done.
    - eapply Forall_impl; [exact Hp|]. intros x Hx. apply elem_of_app. by left.
    - apply (wgood_vis B H). apply (wild_inv Hn B H enc dec (lg0 ++ lg) st lg Hw Hc). intros x Hx. apply elem_of_app. by right.
  Qed.
  (** What a present key's value is. *)
  Lemma encs_leaf M t k e v : twf t → encs enc M (tmap t) → (k, e) ∈ tleaves t → dec e = Ok v → M !! k = Some v.
  Proof using Hcodec.
    intros Hwf He Hin Hd. apply tmap_lookup in Hin; [|done].
    pose proof (encs_dec enc dec Hcodec M _ k He) as Hx. rewrite Hin in Hx. destruct Hx as (v' & ? & ?). congruence.
  Qed.

  Theorem lost_get_one st0 lg0 r M st lg D k : live B0 H enc dec st0 lg0 r M → wild B H enc dec st lg →
    no_collision H (lg0 ++ lg) → 8 * n + 1 ≤ D →
    (M !! k = None → out B H (get_one dec D r k) st = ROk None) ∧
    (∀ v, M !! k = Some v →
      ((∀ x, on_way (b_vis B0 st0) r k x → is_Some (b_vis B st !! x)) → out B H (get_one dec D r k) st = ROk (Some v)) ∧
      (∀ x, on_way (b_vis B0 st0) r k x → b_vis B st !! x = None → out B H (get_one dec D r k) st = ROk None)).
  Proof using Hn Hcodec HB0 HB.
    intros Hl Hw Hc HD. destruct (lost_setup st0 lg0 r M st lg Hl Hw Hc) as (t & -> & Hwf & Hst & Hp & He & Hs).
    pose proof (tneed_depth Hn t k) as Hne. pose proof (twf_depth t Hwf) as Hde.
    pose proof (get_one_lost Hn B H _ Hc dec D (D + 2) k 0 t st Hs Hp (twf_tpwf t Hwf) ltac:(lia) ltac:(lia)) as Hg.
    fold (get_one dec D (troot H t) k) in Hg. rewrite Hg. clear Hg.
    rewrite tlookup_tmap by done. pose proof (encs_dec enc dec Hcodec M _ k He) as Hx. split.
    - intros HM. destruct (tmap t !! k) as [e|].
      + destruct Hx as (v & _ & ?). congruence.
      + by destruct (lost H (b_vis B st) t k).
    - intros v HM. destruct (tmap t !! k) as [e|] eqn:Hk; [|congruence]. destruct Hx as (v' & Hv' & ?).
      assert (v' = v) as -> by congruence. rewrite Hv'.
      assert (k ∈ tkeys t) as Hin by (apply tmap_has; unfold has_key; rewrite Hk; by eexists).
      pose proof (lost_spec H (b_vis B st) t k Hwf Hin) as Hls. split.
      + intros Hall. destruct (lost H (b_vis B st) t k); [|done]. exfalso.
        assert (true = false) as Hf; [|done]. apply Hls. intros o Ho Hko. apply Hall.
        apply (on_way_touched H); [done|]. eauto.
      + intros x Hx Hno. destruct (lost H (b_vis B st) t k) eqn:Hlo; [done|]. exfalso.
        apply (on_way_touched H) in Hx as (o & Ho & Hko & <-); [|done].
        destruct (proj1 Hls eq_refl o Ho Hko) as [nd Hnd]. congruence.
  Qed.
  (** Proofs tell the two cases apart. *)
  Theorem lost_prove st0 lg0 r M st lg D k : live B0 H enc dec st0 lg0 r M → wild B H enc dec st lg →
    no_collision H (lg0 ++ lg) → 8 * n + 1 ≤ D →
    (M !! k = None → out B H (generate_inclusion_proof D r k) st = RErr "Key not found in tree" ∨
                     out B H (generate_inclusion_proof D r k) st = RErr "Failed to find node") ∧
    (∀ v, M !! k = Some v →
      ((∀ x, on_way (b_vis B0 st0) r k x → is_Some (b_vis B st !! x)) →
         ∃ p, out B H (generate_inclusion_proof D r k) st = ROk p ∧
              out B0 H (generate_inclusion_proof D r k) st0 = ROk p) ∧
      (∀ x, on_way (b_vis B0 st0) r k x → b_vis B st !! x = None →
         out B H (generate_inclusion_proof D r k) st = RErr "Failed to find node")).
  Proof using Hn Hcodec HB0 HB.
    intros Hl Hw Hc HD. destruct (lost_setup st0 lg0 r M st lg Hl Hw Hc) as (t & -> & Hwf & Hst & Hp & He & Hs).
    pose proof (tneed_depth Hn t k) as Hne. pose proof (twf_depth t Hwf) as Hde.
    pose proof (gen_proof_lost Hn B H _ Hc D (D + 2) k 0 [] t st Hs Hp (twf_tpwf t Hwf) ltac:(lia) ltac:(lia)) as Hg.
    fold (generate_inclusion_proof D (troot H t) k) in Hg. rewrite Hg. clear Hg.
    rewrite (gen_proof_run Hn) by (auto using twf_tpwf).
    destruct (Nat.ltb_spec D (tneed t k)) as [?|_]; [lia|].
    rewrite !tlookup_tmap by done. pose proof (encs_dec enc dec Hcodec M _ k He) as Hx. split.
    - intros HM. destruct (tmap t !! k) as [e|].
      + destruct Hx as (v & _ & ?). congruence.
      + destruct (lost H (b_vis B st) t k); auto.
    - intros v HM. destruct (tmap t !! k) as [e|] eqn:Hk; [|congruence].
      assert (k ∈ tkeys t) as Hin by (apply tmap_has; unfold has_key; rewrite Hk; by eexists).
      pose proof (lost_spec H (b_vis B st) t k Hwf Hin) as Hls. split.
      + intros Hall. destruct (lost H (b_vis B st) t k); [|by eexists]. exfalso.
        assert (true = false) as Hf; [|done]. apply Hls. intros o Ho Hko. apply Hall.
        apply (on_way_touched H); [done|]. eauto.
      + intros x Hx' Hno. destruct (lost H (b_vis B st) t k) eqn:Hlo; [done|]. exfalso.
        apply (on_way_touched H) in Hx' as (o & Ho & Hko & <-); [|done].
        destruct (proj1 Hls eq_refl o Ho Hko) as [nd Hnd]. congruence.
  Qed.
  Theorem lost_get st0 lg0 r M st lg D ks : live B0 H enc dec st0 lg0 r M → wild B H enc dec st lg →
    no_collision H (lg0 ++ lg) → 8 * n ≤ D →
    out B H (get dec D r ks) st = RErr "Corrupt merkle tree: Failed to get leaf node from DB" ∨
    ∃ lm, out B H (get dec D r ks) st = ROk lm ∧
      ∀ k, (k ∉ ks → lm !! k = None) ∧ (k ∈ ks → lm !! k = Some None ∨ lm !! k = Some (M !! k)).
  Proof using Hn Hcodec HB0 HB.
    intros Hl Hw Hc HD. destruct (lost_setup st0 lg0 r M st lg Hl Hw Hc) as (t & -> & Hwf & Hst & Hp & He & Hs).
    pose proof (twf_depth t Hwf) as Hde.
    pose proof (get_lost Hn B H _ Hc dec (dec_no_panic _ _ Hcodec) D st t ks Hs Hp (twf_tpwf t Hwf)) as Hg.
    destruct (out B H (get dec D (troot H t) ks) st) as [lm|er| |]; try done.
    - right. exists lm. split; [done|]. destruct Hg as [Hd Hv]. intros k. split; [by apply Hd|].
      intros Hk. destruct (lm !! k) as [[v|]|] eqn:Hx.
      + right. destruct (Hv k v Hx) as (e & Hin & Hde'). by rewrite (encs_leaf M t k e v Hwf He Hin Hde').
      + by left.
      + by apply Hd in Hx.
    - left. destruct Hg as [[_ ?]|[->|(k & e & Hin & Hde')]]; [lia|done|].
      apply tmap_lookup in Hin; [|done]. pose proof (encs_dec enc dec Hcodec M _ k He) as Hx. rewrite Hin in Hx.
      destruct Hx as (v' & ? & ?). congruence.
  Qed.
  (** [get] of one key: a missing data node is reported, another missing node is not. *)
  Theorem lost_get_single st0 lg0 r M st lg D k v : live B0 H enc dec st0 lg0 r M → wild B H enc dec st lg →
    no_collision H (lg0 ++ lg) → 8 * n ≤ D → M !! k = Some v →
    ((∀ x, on_way (b_vis B0 st0) r k x → is_Some (b_vis B st !! x)) →
       out B H (get dec D r [k]) st = ROk {[k := Some v]}) ∧
    (∀ x rf e, on_way (b_vis B0 st0) r k x → b_vis B0 st0 !! x = Some (Node rf (VData e)) → b_vis B st !! x = None →
       (∀ y, on_way (b_vis B0 st0) r k y → y ≠ x → is_Some (b_vis B st !! y)) →
       out B H (get dec D r [k]) st = RErr "Corrupt merkle tree: Failed to get leaf node from DB") ∧
    (∀ x rf w, on_way (b_vis B0 st0) r k x → b_vis B0 st0 !! x = Some (Node rf w) → (∀ e, w ≠ VData e) →
       b_vis B st !! x = None → out B H (get dec D r [k]) st = ROk {[k := None]}).
  Proof using Hn Hcodec HB0 HB.
    intros Hl Hw Hc HD HM. destruct (lost_setup st0 lg0 r M st lg Hl Hw Hc) as (t & -> & Hwf & Hst & Hp & He & Hs).
    pose proof (twf_depth t Hwf) as Hde.
    assert (∀ k' e, (k', e) ∈ tleaves t → ∃ v, dec e = Ok v) as Hdec.
    { intros k' e Hin. apply tmap_lookup in Hin; [|done].
      pose proof (encs_dec enc dec Hcodec M _ k' He) as Hx. rewrite Hin in Hx. destruct Hx as (v' & ? & ?). eauto. }
    rewrite (get_one_key Hn B H _ Hc dec D t k st Hs Hp (twf_tpwf t Hwf) Hdec) by lia.
    pose proof (encs_dec enc dec Hcodec M _ k He) as Hx. destruct (tmap t !! k) as [e|] eqn:Hk; [|congruence].
    destruct Hx as (v' & Hv' & ?). assert (v' = v) as -> by congruence.
    assert (k ∈ tkeys t) as Hin by (apply tmap_has; unfold has_key; rewrite Hk; by eexists).
    assert (tlookup t k = Some e) as Hlk by (by rewrite tlookup_tmap).
    assert ((k, e) ∈ tleaves t) as Hle by (by apply tmap_lookup).
    assert (∀ p, subtrie p t → k ∈ tkeys p → on_way (b_vis B0 st0) (troot H t) k (troot H p)) as Hsub.
    { intros p Hsp Hkp. apply (on_way_touched H); [done|]. by exists (OT p). }
    assert (on_way (b_vis B0 st0) (troot H t) k (dloc H k e)) as Hdw.
    { apply (on_way_touched H); [done|]. exists (OD k e). split_and!; [|by left|done]. cbn. by apply leaf_subtrie. }
    assert (∀ o, osub o t → has (b_vis B0 st0) (oloc H o) (ovar H o)) as Hhas.
    { intros [p|k' e'] Ho; cbn in Ho |- *.
      - apply stored_root. by eapply subtrie_stored.
      - eapply subtrie_stored in Hst; [|exact Ho]. by destruct Hst. }
    assert (∀ p w, tvar H p = w → ∀ e, w ≠ VData e) as Hnd by (by intros [??|??] w <- ?).
    assert (∀ x rf w, on_way (b_vis B0 st0) (troot H t) k x → b_vis B0 st0 !! x = Some (Node rf w) →
      (∃ p, subtrie p t ∧ k ∈ tkeys p ∧ x = troot H p ∧ w = tvar H p) ∨ (x = dloc H k e ∧ ∃ e', w = VData e')) as Hcase.
    { intros x rf w Hx Hxw. apply (on_way_touched H) in Hx as (o & Ho & Hko & <-); [|done].
      pose proof (Hhas o Ho) as Hvar. unfold has in Hvar. rewrite Hxw in Hvar. injection Hvar as ->.
      destruct o as [p|k' e']; [left; by exists p|right]. cbn in Hko. apply elem_of_list_singleton in Hko as <-.
      split; [|by exists e']. cbn in Ho |- *. f_equal. assert ((k, e') ∈ tleaves t) as Hl' by (eapply subtrie_leaves; [exact Ho|by left]).
      apply tmap_lookup in Hl'; [|done]. congruence. }
    assert (generate_leaf_map (V := V) [k] = {[k := None]}) as Hlm.
    { apply map_eq. intros k'. rewrite leaf_map_lookup. destruct (decide (k' = k)) as [->|Hne].
      - rewrite lookup_singleton. by rewrite decide_True by (by left).
      - rewrite lookup_singleton_ne by done. by rewrite decide_False by (by intros ->%elem_of_list_singleton). }
    rewrite Hlm. split_and!.
    - intros Hall. rewrite decide_True by (apply Hall, Hsub; [apply sub_refl|done]).
      destruct (gres_spec H (b_vis B st) t k e Hwf Hlk Hin) as [H1 _]; [apply Hall, Hsub; [apply sub_refl|done]|].
      rewrite H1 by (intros p ? ?; by apply Hall, Hsub). rewrite decide_True by (by apply Hall). cbn [gout]. rewrite Hv'.
      by rewrite insert_singleton.
    - intros x rf e' Hx Hxd Hno Hall. destruct (Hcase x rf _ Hx Hxd) as [(p & _ & _ & _ & Hpw)|[-> _]].
      { symmetry in Hpw. by apply Hnd with (e := e') in Hpw. }
      assert (∀ p, subtrie p t → k ∈ tkeys p → is_Some (b_vis B st !! troot H p)) as Hpr.
      { intros p Hsp Hkp. apply Hall; [by apply Hsub|]. intros Heq. pose proof (Hhas (OT p) Hsp) as Hvar.
        unfold has in Hvar. cbn [oloc ovar] in Hvar. rewrite Heq, Hxd in Hvar. injection Hvar as Hvar. symmetry in Hvar. by eapply Hnd in Hvar. }
      rewrite decide_True by (apply Hpr; [apply sub_refl|done]).
      destruct (gres_spec H (b_vis B st) t k e Hwf Hlk Hin) as [H1 _]; [apply Hpr; [apply sub_refl|done]|].
      rewrite H1 by done. rewrite decide_False by (rewrite Hno; by intros [? ?]). done.
    - intros x rf w Hx Hxd Hnw Hno. destruct (Hcase x rf w Hx Hxd) as [(p & Hsp & Hkp & -> & _)|[_ [e' ->]]]; [|by destruct (Hnw e')].
      destruct (decide (is_Some (b_vis B st !! troot H t))) as [Hr|]; [|done].
      destruct (gres_spec H (b_vis B st) t k e Hwf Hlk Hin Hr) as [_ H2]. rewrite H2; [done|]. by exists p.
  Qed.
End LostWild.

(** ** Databases with any content *)
Section Tamper.
  Context {n : nat} (Hn : 0 < n) (B0 B : backend n) {HB0 : BackendOk B0} (H : list bytes → arr n).
  Context {V : Type} (enc : V → res bytes) (dec : bytes → res V) (Hcodec : codec_ok enc dec).
  (** [p] is arbitrary, for instance generated from an altered database. *)
  Theorem tamper_proof st0 lg0 r M (st : b_st B) k v p : live B0 H enc dec st0 lg0 r M →
    no_collision H (lg0 ++ hlog B H (verify_inclusion_proof enc r k v p) st) →
    out B H (verify_inclusion_proof enc r k v p) st = ROk tt → M !! k = Some v.
  Proof using Hn Hcodec HB0.
    intros Hl Hc Hout. set (L := lg0 ++ _) in *.
    destruct (live_handle Hn B0 H enc dec Hcodec st0 lg0 r M Hl) as (t & Hr & Hwf & _ & Hp & He).
    { intros x y Hx Hy. apply Hc; apply elem_of_app; by left. }
    cbn [fst snd] in *.
    destruct (verify_ok_inv B H enc r k v p st Hout) as (e & p0 & p1 & items & Hev & -> & Hp0 & Hp1 & Hfold & Hlog).
    assert ((k, e) ∈ tleaves t) as Hin.
    { eapply (vfold_sound H (λ x, x ∈ L) items); try done.
      - eapply Forall_impl; [exact Hp|]. intros x ?. apply elem_of_app. by left.
      - apply elem_of_app. right. rewrite Hlog. by left.
      - apply elem_of_app. right. rewrite Hlog. right. by left.
      - apply Forall_forall. intros x Hx. apply elem_of_app. right. rewrite Hlog. right. by right.
      - congruence. }
    apply tmap_lookup in Hin; [|done]. pose proof (encs_dec enc dec Hcodec M _ k He) as Hx. rewrite Hin in Hx.
    destruct Hx as (v' & Hd & HM). rewrite (dec_enc _ _ Hcodec v e Hev) in Hd. congruence.
  Qed.
End Tamper.
