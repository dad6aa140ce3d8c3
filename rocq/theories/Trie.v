(** * Abstract tries: the trees that the database represents *)
From Coq Require Import Strings.Byte NArith.
From stdpp Require Import prelude countable gmap sorting strings.
From Verif Require Import Model Bits Util.

Local Open Scope nat_scope.

(** A leaf holds a key and an encoded value. *)
Inductive trie (n : nat) : Type :=
| TLeaf (k : arr n) (e : bytes)
| TNode (l r : trie n).
Arguments TLeaf {n} k e.
Arguments TNode {n} l r.

Section Trie.
  Context {n : nat}.
  Implicit Types (t l r : trie n) (k a b c : arr n).

  Fixpoint tmin t : arr n :=
    match t with TLeaf k _ => k | TNode l _ => tmin l end.
  Fixpoint tleaves t : list (arr n * bytes) :=
    match t with TLeaf k e => [(k, e)] | TNode l r => tleaves l ++ tleaves r end.
  Definition tkeys t : list (arr n) := (tleaves t).*1.
  Fixpoint tsize t : nat :=
    match t with TLeaf _ _ => 1 | TNode l r => tsize l + tsize r end.
  Definition tsplit l r : nat := klcp (tmin l) (tmin r).
  Fixpoint tdepth t : nat :=
    match t with TLeaf _ _ => 0 | TNode l r => S (max (tdepth l) (tdepth r)) end.
  Definition tmap t : gmap (arr n) bytes := list_to_map (tleaves t).

  (** Every branch separates keys that agree before its split bit. *)
  Fixpoint twf t : Prop :=
    match t with
    | TLeaf _ _ => True
    | TNode l r =>
        twf l ∧ twf r ∧ klt (tmin l) (tmin r) ∧
        (∀ a, a ∈ tkeys l → tsplit l r < klcp a (tmin l)) ∧
        (∀ b, b ∈ tkeys r → tsplit l r < klcp b (tmin r))
    end.
  (** Weaker: only the smallest keys are in order (always true of what insert
      writes, even for the batches it mishandles). *)
  Fixpoint tpwf t : Prop :=
    match t with
    | TLeaf _ _ => True
    | TNode l r => tpwf l ∧ tpwf r ∧ klt (tmin l) (tmin r)
    end.

  (** Descent by split bits, as the readers do it. *)
  Fixpoint tlookup t k : option bytes :=
    match t with
    | TLeaf k' e => if decide (k' = k) then Some e else None
    | TNode l r =>
        if decide (tsplit l r ≤ klcp k (tmin l))
        then if bit k (tsplit l r) then tlookup r k else tlookup l k
        else None
    end.

  Lemma twf_tpwf t : twf t → tpwf t.
  Proof. induction t as [|l IHl r IHr]; simpl; [done|]. intros (?&?&?&_&_). auto. Qed.

  Lemma tkeys_node l r : tkeys (TNode l r) = tkeys l ++ tkeys r.
  Proof. unfold tkeys. simpl. apply fmap_app. Qed.
  Lemma tmin_in t : tmin t ∈ tkeys t.
  Proof.
    induction t as [|l IHl r IHr]; [by left|]. rewrite tkeys_node.
    apply elem_of_app. by left.
  Qed.
  Lemma tleaves_length t : length (tleaves t) = tsize t.
  Proof. induction t as [|l IHl r IHr]; simpl; [done|]. rewrite app_length. lia. Qed.
  Lemma tkeys_length t : length (tkeys t) = tsize t.
  Proof. unfold tkeys. rewrite fmap_length. apply tleaves_length. Qed.
  Lemma tsize_pos t : 0 < tsize t.
  Proof. induction t; simpl; lia. Qed.
  Lemma elem_of_tkeys t k : k ∈ tkeys t ↔ ∃ e, (k, e) ∈ tleaves t.
  Proof.
    unfold tkeys. rewrite elem_of_list_fmap. split.
    - intros ([k' e] & -> & Hin). eauto.
    - intros [e Hin]. by exists (k, e).
  Qed.

  Lemma tsplit_lt l r : klt (tmin l) (tmin r) → tsplit l r < 8 * n.
  Proof. intros Hlt. by apply klt_iff in Hlt as (?&_&_). Qed.
  Lemma tsplit_bits l r : klt (tmin l) (tmin r) →
    bit (tmin l) (tsplit l r) = false ∧ bit (tmin r) (tsplit l r) = true.
  Proof. intros Hlt. by apply klt_iff in Hlt as (_&?&?). Qed.

  (** Consequences of well-formedness for a branch. *)
  Lemma twf_left l r a : twf (TNode l r) → a ∈ tkeys l →
    tsplit l r < klcp a (tmin l) ∧ bit a (tsplit l r) = false.
  Proof.
    intros (Hl & Hr & Hlt & H1 & H2) Ha. split; [auto|].
    rewrite (klcp_agree a (tmin l)) by auto. by apply tsplit_bits.
  Qed.
  Lemma twf_right l r b : twf (TNode l r) → b ∈ tkeys r →
    klcp b (tmin l) = tsplit l r ∧ tsplit l r < klcp b (tmin r) ∧ bit b (tsplit l r) = true.
  Proof.
    intros (Hl & Hr & Hlt & H1 & H2) Hb. pose proof (H2 b Hb) as Hs. split_and!; [|done|].
    - rewrite klcp_sym. unfold tsplit in *. apply klcp_ultra_lt. by rewrite (klcp_sym _ b).
    - rewrite (klcp_agree b (tmin r)) by auto. by apply tsplit_bits.
  Qed.
  Lemma twf_cross l r a b : twf (TNode l r) → a ∈ tkeys l → b ∈ tkeys r →
    klcp a b = tsplit l r ∧ klt a b.
  Proof.
    intros Hwf Ha Hb.
    destruct (twf_left l r a Hwf Ha) as [Ha1 Ha2].
    destruct (twf_right l r b Hwf Hb) as (Hb1 & Hb2 & Hb3).
    assert (klcp a b = tsplit l r) as He.
    { rewrite (klcp_sym a b), <- Hb1. apply klcp_ultra_lt. rewrite (klcp_sym _ a). lia. }
    split; [done|]. apply klt_iff. rewrite He. split_and!; [|done|done].
    apply tsplit_lt. by destruct Hwf as (_&_&?&_).
  Qed.
  Lemma twf_agree l r k : twf (TNode l r) → k ∈ tkeys (TNode l r) →
    tsplit l r ≤ klcp k (tmin l).
  Proof.
    rewrite tkeys_node, elem_of_app. intros Hwf [Hk|Hk].
    - apply (twf_left l r k Hwf) in Hk as [? _]. lia.
    - apply (twf_right l r k Hwf) in Hk as (? & _). lia.
  Qed.

  Lemma twf_sorted t : twf t → StronglySorted klt (tkeys t).
  Proof.
    induction t as [k e|l IHl r IHr]; intros Hwf.
    - repeat constructor.
    - rewrite tkeys_node. pose proof Hwf as (Hl & Hr & _).
      apply StronglySorted_app_intro; [auto|auto|].
      intros a b Ha Hb. by apply (twf_cross l r).
  Qed.
  Lemma klt_sorted_nodup (ks : list (arr n)) : StronglySorted klt ks → NoDup ks.
  Proof.
    induction 1 as [|k ks Hs IH Hk]; [constructor|]. constructor; [|done].
    intros Hin. rewrite Forall_forall in Hk. by apply (klt_irrefl k), Hk.
  Qed.
  Lemma twf_nodup t : twf t → NoDup (tkeys t).
  Proof. intros. by apply klt_sorted_nodup, twf_sorted. Qed.

  Lemma tmap_lookup t k e : twf t → tmap t !! k = Some e ↔ (k, e) ∈ tleaves t.
  Proof.
    intros Hwf. unfold tmap. symmetry. apply elem_of_list_to_map. by apply twf_nodup.
  Qed.
  Lemma tmap_lookup_None t k : tmap t !! k = None ↔ k ∉ tkeys t.
  Proof. unfold tmap. symmetry. apply not_elem_of_list_to_map. Qed.

  Lemma tlookup_elem t k e : tlookup t k = Some e → (k, e) ∈ tleaves t.
  Proof.
    induction t as [k' e'|l IHl r IHr]; simpl.
    - destruct (decide (k' = k)) as [->|]; [|done]. intros [= ->]. by left.
    - destruct (decide _); [|done]. rewrite elem_of_app. destruct (bit k _); auto.
  Qed.
  Lemma tlookup_complete t k e : twf t → (k, e) ∈ tleaves t → tlookup t k = Some e.
  Proof.
    induction t as [k' e'|l IHl r IHr]; intros Hwf Hin.
    - apply elem_of_list_singleton in Hin as [= -> ->]. simpl. by rewrite decide_True.
    - assert (k ∈ tkeys (TNode l r)) as Hk by (apply elem_of_tkeys; eauto).
      pose proof (twf_agree l r k Hwf Hk) as Hag.
      simpl. rewrite decide_True by done.
      pose proof Hwf as (Hl & Hr & _).
      simpl in Hin. apply elem_of_app in Hin as [Hin|Hin].
      + assert (k ∈ tkeys l) as Hkl by (apply elem_of_tkeys; eauto).
        destruct (twf_left l r k Hwf Hkl) as [_ ->]. auto.
      + assert (k ∈ tkeys r) as Hkr by (apply elem_of_tkeys; eauto).
        destruct (twf_right l r k Hwf Hkr) as (_ & _ & ->). auto.
  Qed.
  Lemma tlookup_tmap t k : twf t → tlookup t k = tmap t !! k.
  Proof.
    intros Hwf. destruct (tmap t !! k) as [e|] eqn:He.
    - apply tlookup_complete; [done|]. by apply tmap_lookup.
    - destruct (tlookup t k) as [e|] eqn:Hl; [|done].
      apply tlookup_elem in Hl. apply tmap_lookup_None in He. exfalso. apply He.
      apply elem_of_tkeys. eauto.
  Qed.

  (** ** Canonicity: a well-formed trie is determined by its leaves, and its
      leaves by its map. *)
  Lemma tleaves_head t : ∃ e ls, tleaves t = (tmin t, e) :: ls.
  Proof.
    induction t as [k e|l IHl r IHr]; simpl; [eauto|].
    destruct IHl as (e & ls & ->). simpl. eauto.
  Qed.
  Lemma twf_leaves_filter l r s : twf (TNode l r) → s = tsplit l r →
    filter (λ p, bit p.1 s = false) (tleaves (TNode l r)) = tleaves l ∧
    filter (λ p, bit p.1 s = true) (tleaves (TNode l r)) = tleaves r.
  Proof.
    intros Hwf ->. simpl. rewrite !filter_app.
    assert (∀ p, p ∈ tleaves l → bit p.1 (tsplit l r) = false) as HL.
    { intros [k e] Hp. apply (twf_left l r k Hwf). apply elem_of_tkeys. eauto. }
    assert (∀ p, p ∈ tleaves r → bit p.1 (tsplit l r) = true) as HR.
    { intros [k e] Hp. apply (twf_right l r k Hwf). apply elem_of_tkeys. eauto. }
    split.
    - rewrite filter_all by done. rewrite filter_none, app_nil_r; [done|].
      intros p Hp. rewrite HR by done. done.
    - rewrite (filter_none _ (tleaves l)); [rewrite filter_all; done|].
      intros p Hp. rewrite HL by done. done.
  Qed.
  Lemma tsplit_last l r p : twf (TNode l r) → last (tleaves (TNode l r)) = Some p →
    klcp (tmin l) p.1 = tsplit l r.
  Proof.
    intros Hwf Hlast. simpl in Hlast. rewrite last_app in Hlast.
    destruct (last (tleaves r)) as [p'|] eqn:Hl.
    - injection Hlast as ->. apply (twf_cross l r); [done|apply tmin_in|].
      apply elem_of_tkeys. exists p.2. rewrite <- surjective_pairing.
      apply last_Some in Hl as [l' ->]. apply elem_of_app. right. by left.
    - apply last_None in Hl. pose proof (tleaves_length r) as Hlen. rewrite Hl in Hlen.
      pose proof (tsize_pos r). simpl in Hlen. lia.
  Qed.
  Lemma twf_leaves_inj t1 t2 : twf t1 → twf t2 → tleaves t1 = tleaves t2 → t1 = t2.
  Proof.
    revert t2. induction t1 as [k e|l1 IHl r1 IHr]; intros [k2 e2|l2 r2] H1 H2 Heq.
    - simpl in Heq. by simplify_eq.
    - apply (f_equal length) in Heq. rewrite !tleaves_length in Heq. simpl in Heq.
      pose proof (tsize_pos l2). pose proof (tsize_pos r2). lia.
    - apply (f_equal length) in Heq. rewrite !tleaves_length in Heq. simpl in Heq.
      pose proof (tsize_pos l1). pose proof (tsize_pos r1). lia.
    - destruct (last (tleaves (TNode l1 r1))) as [p|] eqn:Hlast.
      2:{ apply last_None in Hlast. pose proof (tleaves_length (TNode l1 r1)) as Hlen.
          rewrite Hlast in Hlen. pose proof (tsize_pos (TNode l1 r1)). simpl in *. lia. }
      pose proof (tsplit_last l1 r1 p H1 Hlast) as Hs1.
      rewrite Heq in Hlast. pose proof (tsplit_last l2 r2 p H2 Hlast) as Hs2.
      assert (tmin l1 = tmin l2) as Hmin.
      { destruct (tleaves_head (TNode l1 r1)) as (?&?&E1).
        destruct (tleaves_head (TNode l2 r2)) as (?&?&E2).
        rewrite E1, E2 in Heq. simpl in Heq. by simplify_eq. }
      rewrite Hmin in Hs1.
      destruct (twf_leaves_filter l1 r1 (tsplit l1 r1) H1 eq_refl) as [F1 F2].
      destruct (twf_leaves_filter l2 r2 (tsplit l1 r1) H2 ltac:(congruence)) as [F3 F4].
      rewrite Heq in F1, F2.
      pose proof H1 as (W1&W2&_). pose proof H2 as (W3&W4&_).
      f_equal; [apply IHl|apply IHr]; try done; congruence.
  Qed.

  (** Strictly sorted lists of pairs with the same elements are equal. *)
  Lemma klt_sorted_unique (l1 l2 : list (arr n * bytes)) :
    StronglySorted klt l1.*1 → StronglySorted klt l2.*1 →
    (∀ p, p ∈ l1 ↔ p ∈ l2) → l1 = l2.
  Proof.
    revert l2. induction l1 as [|[k1 e1] l1 IH]; intros [|[k2 e2] l2] H1 H2 Hiff.
    - done.
    - exfalso. specialize (Hiff (k2, e2)). apply (elem_of_nil (k2, e2)), Hiff. by left.
    - exfalso. specialize (Hiff (k1, e1)). apply (elem_of_nil (k1, e1)), Hiff. by left.
    - rewrite !fmap_cons in *. simpl in *.
      apply StronglySorted_inv in H1 as [H1 F1]. apply StronglySorted_inv in H2 as [H2 F2].
      rewrite Forall_forall in F1, F2.
      assert (∀ k e, (k, e) ∈ l1 → klt k1 k) as G1.
      { intros k e Hin. apply F1. apply elem_of_list_fmap. by exists (k, e). }
      assert (∀ k e, (k, e) ∈ l2 → klt k2 k) as G2.
      { intros k e Hin. apply F2. apply elem_of_list_fmap. by exists (k, e). }
      assert ((k1, e1) = (k2, e2)) as [= -> ->].
      { pose proof (proj1 (Hiff (k1, e1)) ltac:(by left)) as Ha.
        pose proof (proj2 (Hiff (k2, e2)) ltac:(by left)) as Hb.
        apply elem_of_cons in Ha as [|Ha]; [done|].
        apply elem_of_cons in Hb as [|Hb]; [done|].
        exfalso. apply (klt_asym k1 k2); [by eapply G1|by eapply G2]. }
      f_equal. apply IH; [done|done|]. intros [k e]. specialize (Hiff (k, e)).
      rewrite !elem_of_cons in Hiff. split; intros Hin.
      + destruct (proj1 Hiff (or_intror Hin)) as [[= -> ->]|]; [|done].
        exfalso. by eapply klt_irrefl, G1.
      + destruct (proj2 Hiff (or_intror Hin)) as [[= -> ->]|]; [|done].
        exfalso. by eapply klt_irrefl, G2.
  Qed.
  Lemma twf_map_inj t1 t2 : twf t1 → twf t2 → tmap t1 = tmap t2 → t1 = t2.
  Proof.
    intros H1 H2 Heq. apply twf_leaves_inj; [done|done|].
    apply klt_sorted_unique; [by apply twf_sorted|by apply twf_sorted|].
    intros [k e]. rewrite <- !tmap_lookup by done. by rewrite Heq.
  Qed.

  (** Splits strictly increase downwards. *)
  Lemma twf_split_l l1 l2 r : twf (TNode (TNode l1 l2) r) →
    tsplit (TNode l1 l2) r < tsplit l1 l2.
  Proof.
    intros (_ & _ & _ & H1 & _). unfold tsplit at 2. rewrite klcp_sym.
    apply (H1 (tmin l2)). rewrite tkeys_node. apply elem_of_app. right. apply tmin_in.
  Qed.
  Lemma twf_split_r l r1 r2 : twf (TNode l (TNode r1 r2)) →
    tsplit l (TNode r1 r2) < tsplit r1 r2.
  Proof.
    intros (_ & _ & _ & _ & H2). unfold tsplit at 2. rewrite klcp_sym.
    apply (H2 (tmin r2)). rewrite tkeys_node. apply elem_of_app. right. apply tmin_in.
  Qed.

  (** Depth is bounded by the number of key bits: splits strictly increase. *)
  Lemma twf_depth_from t s : twf t →
    (match t with TLeaf _ _ => True | TNode l r => s ≤ tsplit l r end) →
    s ≤ 8 * n → tdepth t + s ≤ 8 * n.
  Proof.
    revert s. induction t as [k e|l IHl r IHr]; intros s Hwf Hs Hn; simpl; [lia|].
    pose proof Hwf as (Hl & Hr & Hlt & H1 & H2).
    pose proof (tsplit_lt l r Hlt).
    assert (tdepth l + S (tsplit l r) ≤ 8 * n).
    { apply IHl; [done| |lia]. destruct l as [|l1 l2]; [done|]. by apply twf_split_l. }
    assert (tdepth r + S (tsplit l r) ≤ 8 * n).
    { apply IHr; [done| |lia]. destruct r as [|r1 r2]; [done|]. by apply twf_split_r. }
    lia.
  Qed.
  Lemma twf_depth t : twf t → tdepth t ≤ 8 * n.
  Proof.
    intros Hwf. pose proof (twf_depth_from t 0 Hwf) as Hd.
    destruct t; specialize (Hd ltac:(done || lia) ltac:(lia)); lia.
  Qed.
End Trie.
