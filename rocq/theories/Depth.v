(** * Depth limits of insertions and reads *)
From Coq Require Import Strings.Byte NArith.
From stdpp Require Import prelude countable gmap sorting strings.
From Verif Require Import Model Bits Spec Util Trie Store Logic Reads Build Evol Route Insert Update Safe Get Hist Claims.

Local Open Scope nat_scope.

Section Tins.
  Context {n : nat}.
  Implicit Types (t l r : trie n) (k a b : arr n) (e : bytes) (ks : list (arr n)).

  (** Insertion of one pair into a trie. *)
  Definition tbeside t k e : trie n :=
    if arr_ltb k (tmin t) then TNode (TLeaf k e) t else TNode t (TLeaf k e).
  Fixpoint tins t k e : trie n :=
    match t with
    | TLeaf k' _ => if decide (k' = k) then TLeaf k e else tbeside t k e
    | TNode l r =>
        if decide (tsplit l r ≤ klcp k (tmin l))
        then if bit k (tsplit l r) then TNode l (tins r k e) else TNode (tins l k e) r
        else tbeside t k e
    end.

  Lemma twf_intro l r a b : twf l → twf r → a ∈ tkeys l → b ∈ tkeys r → klt a b →
    (∀ x, x ∈ tkeys l → klcp a b < klcp x a) → (∀ y, y ∈ tkeys r → klcp a b < klcp y b) → twf (TNode l r).
  Proof.
    intros Hl Hr Ha Hb Hlt Hxa Hyb. pose proof Hlt as (Hs & Hb1 & Hb2)%klt_iff.
    assert (∀ x y, x ∈ tkeys l → y ∈ tkeys r → klcp x y = klcp a b ∧ klt x y) as Hc.
    { intros x y Hx Hy. specialize (Hxa x Hx). specialize (Hyb y Hy).
      assert (klcp x b = klcp a b) as He1.
      { rewrite (klcp_sym x), <- (klcp_sym b a). apply (klcp_ultra_lt b a x). rewrite (klcp_sym b a), (klcp_sym a x). done. }
      assert (klcp x y = klcp a b) as He2.
      { rewrite <- He1. apply klcp_ultra_lt. rewrite He1, (klcp_sym b y). done. }
      split; [done|]. apply klt_iff. rewrite He2. split_and!; [done| |].
      - by rewrite (klcp_agree x a).
      - by rewrite (klcp_agree y b). }
    destruct (Hc (tmin l) (tmin r) (tmin_in l) (tmin_in r)) as [Hm1 Hm2].
    simpl. unfold tsplit. rewrite Hm1. split_and!; try done.
    - intros x Hx. pose proof (Hxa _ (tmin_in l)) as H1. specialize (Hxa x Hx).
      pose proof (klcp_ultra x a (tmin l)) as Hu. rewrite (klcp_sym a (tmin l)) in Hu. lia.
    - intros y Hy. pose proof (Hyb _ (tmin_in r)) as H1. specialize (Hyb y Hy).
      pose proof (klcp_ultra y b (tmin r)) as Hu. rewrite (klcp_sym b (tmin r)) in Hu. lia.
  Qed.

  Lemma tbeside_keys t k e x : x ∈ tkeys (tbeside t k e) ↔ x = k ∨ x ∈ tkeys t.
  Proof.
    unfold tbeside. destruct (arr_ltb k (tmin t)); rewrite tkeys_node, elem_of_app;
      unfold tkeys at 1 2; simpl; rewrite elem_of_list_singleton; tauto.
  Qed.
  Lemma tins_keys t k e x : twf t → x ∈ tkeys (tins t k e) ↔ x = k ∨ x ∈ tkeys t.
  Proof.
    induction t as [k' e'|l IHl r IHr]; intros Hwf; cbn [tins].
    - destruct (decide (k' = k)) as [->|]; [|apply tbeside_keys].
      unfold tkeys. simpl. rewrite elem_of_list_singleton. tauto.
    - destruct (decide _); [|apply tbeside_keys]. destruct Hwf as (Hl & Hr & _).
      destruct (bit k _); rewrite !tkeys_node, !elem_of_app; [rewrite IHr by done|rewrite IHl by done]; tauto.
  Qed.
  (** A key on the left of a branch, or on its right. *)
  Lemma left_agree l r k : twf (TNode l r) → tsplit l r ≤ klcp k (tmin l) → bit k (tsplit l r) = false →
    tsplit l r < klcp k (tmin l).
  Proof.
    intros Hwf Hk Hb. pose proof Hwf as (_&_&Hlt&_).
    destruct (decide (tsplit l r = klcp k (tmin l))) as [He|]; [|lia]. exfalso.
    pose proof (tsplit_lt l r Hlt). apply (klcp_differ k (tmin l)); [lia|].
    rewrite <- He, Hb. symmetry. by apply tsplit_bits.
  Qed.
  Lemma tbeside_wf t k e : twf t → (∀ x, x ∈ tkeys t → klcp k (tmin t) < klcp x (tmin t)) →
    k ≠ tmin t → twf (tbeside t k e).
  Proof.
    intros Hwf Hx Hne. unfold tbeside. destruct (arr_ltb k (tmin t)) eqn:Hlt.
    - apply arr_ltb_spec in Hlt. apply (twf_intro _ _ k (tmin t)); try done.
      + by left.
      + apply tmin_in.
      + intros x ->%elem_of_list_singleton. rewrite klcp_refl. by apply klcp_lt.
    - apply arr_ltb_false in Hlt. assert (klt (tmin t) k) as Hlt'.
      { destruct (klt_total k (tmin t)) as [?|[?|?]]; done. }
      apply (twf_intro _ _ (tmin t) k); try done.
      + apply tmin_in.
      + by left.
      + rewrite klcp_sym. done.
      + intros x ->%elem_of_list_singleton. rewrite klcp_refl. by apply klcp_lt.
  Qed.
  Lemma tins_wf t k e : twf t → twf (tins t k e).
  Proof.
    induction t as [k' e'|l IHl r IHr]; intros Hwf; cbn [tins].
    - destruct (decide (k' = k)) as [->|Hne]; [done|]. apply tbeside_wf; [done| |done].
      intros x ->%elem_of_list_singleton. simpl. rewrite klcp_refl. by apply klcp_lt.
    - destruct (decide _) as [Hag|Hag].
      + pose proof Hwf as (Hl & Hr & Hlt & HL & HR). destruct (bit k (tsplit l r)) eqn:Hb.
        * apply (twf_intro _ _ (tmin l) (tmin r)); auto using tmin_in.
          -- apply tins_keys; [done|]. right. apply tmin_in.
          -- intros y [->|Hy]%tins_keys; [|by apply HR|done]. by apply right_agree.
        * apply (twf_intro _ _ (tmin l) (tmin r)); auto using tmin_in.
          -- apply tins_keys; [done|]. right. apply tmin_in.
          -- intros y [->|Hy]%tins_keys; [|by apply HL|done]. by apply left_agree.
      + apply tbeside_wf; [done| |].
        * intros x Hx. pose proof (twf_agree l r x Hwf Hx). simpl in *. lia.
        * simpl. intros ->. rewrite klcp_refl in Hag. pose proof Hwf as (_&_&Hlt&_).
          pose proof (tsplit_lt l r Hlt). lia.
  Qed.
  Lemma tbeside_leaves t k e p : k ∉ tkeys t →
    p ∈ tleaves (tbeside t k e) ↔ p = (k, e) ∨ (p.1 ≠ k ∧ p ∈ tleaves t).
  Proof.
    intros Hk. assert (p ∈ tleaves t → p.1 ≠ k) as Hp.
    { intros Hp Heq. apply Hk. rewrite <- Heq. apply elem_of_tkeys. destruct p; eauto. }
    unfold tbeside. destruct (arr_ltb k (tmin t)); simpl; rewrite ?elem_of_cons, ?elem_of_app, ?elem_of_list_singleton; tauto.
  Qed.
  Lemma tins_leaves t k e p : twf t →
    p ∈ tleaves (tins t k e) ↔ p = (k, e) ∨ (p.1 ≠ k ∧ p ∈ tleaves t).
  Proof.
    induction t as [k' e'|l IHl r IHr]; intros Hwf; cbn [tins].
    - destruct (decide (k' = k)) as [->|Hne].
      + simpl. rewrite !elem_of_list_singleton. naive_solver.
      + apply tbeside_leaves. intros ->%elem_of_list_singleton. done.
    - assert (∀ q : arr n * bytes, q ∈ tleaves l → q.1 ∈ tkeys l) as Hql by (intros [??] ?; apply elem_of_tkeys; eauto).
      assert (∀ q : arr n * bytes, q ∈ tleaves r → q.1 ∈ tkeys r) as Hqr by (intros [??] ?; apply elem_of_tkeys; eauto).
      destruct (decide _) as [Hag|Hag].
      + pose proof Hwf as (Hl & Hr & _). destruct (bit k (tsplit l r)) eqn:Hb; cbn [tleaves]; rewrite !elem_of_app.
        * rewrite IHr by done. split; [|tauto]. intros [Hp|[->|[? ?]]]; [|tauto|tauto].
          right. split; [|tauto]. intros <-. destruct (twf_left l r _ Hwf (Hql _ Hp)) as [_ ?]. congruence.
        * rewrite IHl by done. split; [|tauto]. intros [[->|[? ?]]|Hp]; [tauto|tauto|].
          right. split; [|tauto]. intros <-. destruct (twf_right l r _ Hwf (Hqr _ Hp)) as (_ & _ & ?). congruence.
      + apply tbeside_leaves. intros Hk. by apply Hag, (twf_agree l r).
  Qed.
  Lemma tins_map t k e : twf t → tmap (tins t k e) = <[k := e]> (tmap t).
  Proof.
    intros Hwf. apply map_eq. intros x. apply option_eq. intros y.
    rewrite tmap_lookup, tins_leaves by (done || by apply tins_wf). simpl.
    destruct (decide (k = x)) as [->|Hne].
    - rewrite lookup_insert. naive_solver.
    - rewrite lookup_insert_ne, tmap_lookup by done. naive_solver.
  Qed.

  Context (Hn : 0 < n).
  Lemma clean_single t k : twf t → clean (λ k, k ∈ tkeys t) [k] t [k].
  Proof using Hn.
    intros Hwf. apply clean_root; [done|repeat constructor|]. apply hazard_single.
  Qed.
  (** The depth an insertion visits against that of a search. *)
  Lemma tneed_wdep M ks0 t ks k : clean M ks0 t ks → k ∈ ks → tneed t k ≤ wdep t ks + 1.
  Proof using Hn.
    revert ks. induction t as [k' e'|l IHl r IHr]; intros ks Hc Hk; cbn [tneed wdep].
    - destruct (decide _); lia.
    - assert (ks ≠ []) as Hne by (intros ->; by apply elem_of_nil in Hk).
      destruct (clean_node M ks0 l r ks Hn Hc Hne) as (HD & Hsp & Hcl & Hcr).
      destruct (decide _) as [Hag|]; [|lia].
      assert (k ∈ node_desc ks (tsplit l r) (tmin l)) as HkD.
      { rewrite HD. by apply elem_of_list_filter. }
      destruct (node_desc ks (tsplit l r) (tmin l)) as [|d D]; [by apply elem_of_nil in HkD|].
      rewrite Hsp. cbn [fst snd]. clear Hsp. destruct (bit k (tsplit l r)) eqn:Hb.
      + assert (k ∈ oside l r ks) as Ho.
        { apply elem_of_list_filter. split; [done|by apply elem_of_list_filter]. }
        specialize (IHr _ Hcr Ho). destruct (oside l r ks); [by apply elem_of_nil in Ho|lia].
      + assert (k ∈ zside l r ks) as Hz.
        { apply elem_of_list_filter. split; [done|by apply elem_of_list_filter]. }
        specialize (IHl _ Hcl Hz). destruct (zside l r ks); [by apply elem_of_nil in Hz|lia].
  Qed.
  Lemma tneed_wdep_tidy M ks0 t ks k : tidy M (λ _, True) ks0 t ks → k ∈ ks → tneed t k ≤ wdep t ks + 1.
  Proof using Hn.
    revert ks. induction t as [k' e'|l IHl r IHr]; intros ks Hc Hk; cbn [tneed wdep].
    - destruct (decide _); lia.
    - destruct (tidy_node M _ ks0 l r ks Hn Hc) as (Hcl & Hcr & Hd).
      destruct (decide _) as [Hag|]; [|lia].
      destruct Hc as (_ & Hwf & _ & _ & Hs). destruct (Hd k Hk I Hag) as [Hz Ho]. clear Hd.
      pose proof (desc_true ks l r k Hn Hwf Hs Hk Hag) as HkD. unfold zpart, opart in *.
      destruct (node_desc ks (tsplit l r) (tmin l)) as [|d D]; [by apply elem_of_nil in HkD|].
      destruct (node_split (d :: D) (tsplit l r)) as [zs os]. cbn [fst snd] in *.
      destruct (bit k (tsplit l r)) eqn:Hb.
      + specialize (Ho eq_refl). specialize (IHr _ Hcr Ho). destruct os; [by apply elem_of_nil in Ho|lia].
      + specialize (Hz eq_refl). specialize (IHl _ Hcl Hz). destruct zs; [by apply elem_of_nil in Hz|lia].
  Qed.
  Lemma tneed_wdep_mild t ks k : twf t → ksorted ks → mild (tmap t) ks → k ∈ ks → tneed t k ≤ wdep t ks + 1.
  Proof using Hn.
    intros Hwf Hs [Hh|Hh] Hk.
    - eapply tneed_wdep; [by apply clean_old|done].
    - eapply tneed_wdep_tidy; [by apply tidy_old|done].
  Qed.
  (** For one key. *)
  Lemma wdep_single l r k : twf (TNode l r) →
    wdep (TNode l r) [k] =
      if decide (tsplit l r ≤ klcp k (tmin l))
      then S (if bit k (tsplit l r) then wdep r [k] else wdep l [k]) else 0.
  Proof using Hn.
    intros Hwf. cbn [wdep].
    destruct (clean_node _ _ l r [k] Hn (clean_single _ k Hwf) ltac:(done)) as (HD & Hsp & _ & _).
    rewrite HD in *. clear HD. unfold zside, oside in *. rewrite !filter_cons, filter_nil in *.
    destruct (decide (tsplit l r ≤ klcp k (tmin l))) as [Hag|]; [|done].
    rewrite Hsp. cbn [fst snd]. rewrite !filter_cons, !filter_nil.
    destruct (bit k (tsplit l r)); cbn [decide]; simpl; rewrite ?Nat.max_0_r; done.
  Qed.
  Lemma wdep_tneed t k : twf t → wdep t [k] ≤ tneed t k.
  Proof using Hn.
    induction t as [k' e'|l IHl r IHr]; intros Hwf; [simpl; lia|].
    rewrite wdep_single by done. cbn [tneed]. destruct (decide _); [|lia].
    destruct Hwf as (Hl & Hr & _). specialize (IHl Hl). specialize (IHr Hr). destruct (bit k _); lia.
  Qed.
  (** A key hanging beside a subtree is found in two steps. *)
  Lemma tbeside_need t k e : twf (tbeside t k e) → tneed (tbeside t k e) k = 2.
  Proof using Hn.
    unfold tbeside. destruct (arr_ltb k (tmin t)); intros Hwf; cbn [tneed].
    - destruct (twf_left _ _ k Hwf ltac:(by left)) as [Hag ->].
      rewrite decide_True by (apply Nat.lt_le_incl; exact Hag). simpl. by rewrite decide_True.
    - destruct (twf_right _ _ k Hwf ltac:(by left)) as (? & Hag & ->).
      rewrite decide_True by lia. simpl. by rewrite decide_True.
  Qed.
  Lemma tins_need t k e : twf t → tneed (tins t k e) k ≤ wdep t [k] + 2.
  Proof using Hn.
    induction t as [k' e'|l IHl r IHr]; intros Hwf; pose proof (tins_wf _ k e Hwf) as Hwf'; cbn [tins] in *.
    - destruct (decide (k' = k)); [|rewrite tbeside_need by done; lia]. simpl. destruct (decide _); lia.
    - rewrite wdep_single by done. destruct (decide (tsplit l r ≤ klcp k (tmin l))).
      + pose proof Hwf as (Hl & Hr & _). destruct (bit k (tsplit l r)) eqn:Hb.
        * cbn [tneed]. destruct (twf_right _ _ k Hwf') as (? & Hag & ->); [apply tins_keys; [done|by left]|].
          rewrite decide_True by lia. specialize (IHr Hr). lia.
        * cbn [tneed]. destruct (twf_left _ _ k Hwf') as [Hag ->]; [apply tins_keys; [done|by left]|].
          rewrite decide_True by lia. specialize (IHl Hl). lia.
      + rewrite tbeside_need by done. lia.
  Qed.
  (** Another key's insertion costs one step. *)
  Lemma tbeside_need_other t k e k' : twf (tbeside t k e) → k' ∈ tkeys t →
    tneed (tbeside t k e) k' = S (tneed t k').
  Proof using Hn.
    unfold tbeside. destruct (arr_ltb k (tmin t)); intros Hwf Hk'; cbn [tneed].
    - destruct (twf_right _ _ k' Hwf Hk') as (? & Hag & ->). rewrite decide_True by lia. done.
    - destruct (twf_left _ _ k' Hwf Hk') as [Hag ->]. rewrite decide_True by lia. done.
  Qed.
  Lemma tins_need_other t k e k' : twf t → k' ∈ tkeys t → tneed (tins t k e) k' ≤ S (tneed t k').
  Proof using Hn.
    induction t as [k1 e1|l IHl r IHr]; intros Hwf Hk'; pose proof (tins_wf _ k e Hwf) as Hwf'; cbn [tins] in *.
    - destruct (decide (k1 = k)) as [->|]; [|by rewrite tbeside_need_other].
      simpl. destruct (decide (k = k')); lia.
    - destruct (decide (tsplit l r ≤ klcp k (tmin l))); [|by rewrite tbeside_need_other].
      rewrite tkeys_node, elem_of_app in Hk'. pose proof Hwf as (Hl & Hr & _).
      destruct (bit k (tsplit l r)) eqn:Hb; cbn [tneed].
      + destruct Hk' as [Hk'|Hk'].
        * destruct (twf_left _ _ k' Hwf' Hk') as [Hag ->]. destruct (twf_left _ _ k' Hwf Hk') as [Hag2 ->].
          rewrite !decide_True by lia. lia.
        * destruct (twf_right _ _ k' Hwf') as (? & Hag & ->); [apply tins_keys; auto|].
          destruct (twf_right _ _ k' Hwf Hk') as (? & Hag2 & ->).
          rewrite !decide_True by lia. specialize (IHr Hr Hk'). lia.
      + destruct Hk' as [Hk'|Hk'].
        * destruct (twf_left _ _ k' Hwf') as [Hag ->]; [apply tins_keys; auto|].
          destruct (twf_left _ _ k' Hwf Hk') as [Hag2 ->].
          rewrite !decide_True by lia. specialize (IHl Hl Hk'). lia.
        * destruct (twf_right _ _ k' Hwf' Hk') as (? & Hag & ->).
          destruct (twf_right _ _ k' Hwf Hk') as (? & Hag2 & ->).
          rewrite !decide_True by lia. lia.
  Qed.

  (** Insertion of a batch. *)
  Definition tinsl t (ps : list (arr n * bytes)) : trie n := foldr (λ p u, tins u p.1 p.2) t ps.
  Lemma tinsl_wf t ps : twf t → twf (tinsl t ps).
  Proof using Hn. intros. induction ps; simpl; auto using tins_wf. Qed.
  Lemma tinsl_map t ps : twf t → tmap (tinsl t ps) = list_to_map ps ∪ tmap t.
  Proof using Hn.
    intros Hwf. induction ps as [|[k e] ps IH]; simpl; [by rewrite map_empty_union|].
    rewrite tins_map, IH by (by apply tinsl_wf). by rewrite insert_union_l.
  Qed.
  Lemma tinsl_need t ps k : twf t → k ∈ tkeys t → tneed (tinsl t ps) k ≤ length ps + tneed t k.
  Proof using Hn.
    intros Hwf Hk. induction ps as [|[k1 e1] ps IH]; simpl; [lia|].
    etrans; [apply tins_need_other|lia].
    - by apply tinsl_wf.
    - clear IH. induction ps as [|[k2 e2] ps IH]; simpl; [done|].
      apply tins_keys; [by apply tinsl_wf|by right].
  Qed.
  Lemma wdep_le M ks0 t ks k : clean M ks0 t ks → k ∈ ks → wdep t [k] ≤ wdep t ks.
  Proof using Hn.
    revert ks. induction t as [k' e'|l IHl r IHr]; intros ks Hc Hk; [simpl; lia|].
    rewrite wdep_single by apply Hc. cbn [wdep].
    assert (ks ≠ []) as Hne by (intros ->; by apply elem_of_nil in Hk).
    destruct (clean_node M ks0 l r ks Hn Hc Hne) as (HD & Hsp & Hcl & Hcr).
    destruct (decide _) as [Hag|]; [|lia].
    assert (k ∈ node_desc ks (tsplit l r) (tmin l)) as HkD.
    { rewrite HD. by apply elem_of_list_filter. }
    destruct (node_desc ks (tsplit l r) (tmin l)) as [|d D]; [by apply elem_of_nil in HkD|].
    rewrite Hsp. cbn [fst snd]. clear Hsp. destruct (bit k (tsplit l r)) eqn:Hb.
    - assert (k ∈ oside l r ks) as Ho.
      { apply elem_of_list_filter. split; [done|by apply elem_of_list_filter]. }
      specialize (IHr _ Hcr Ho). destruct (oside l r ks); [by apply elem_of_nil in Ho|lia].
    - assert (k ∈ zside l r ks) as Hz.
      { apply elem_of_list_filter. split; [done|by apply elem_of_list_filter]. }
      specialize (IHl _ Hcl Hz). destruct (zside l r ks); [by apply elem_of_nil in Hz|lia].
  Qed.
  Lemma wdep_le_tidy M ks0 t ks k : tidy M (λ _, True) ks0 t ks → k ∈ ks → wdep t [k] ≤ wdep t ks.
  Proof using Hn.
    revert ks. induction t as [k' e'|l IHl r IHr]; intros ks Hc Hk; [simpl; lia|].
    rewrite wdep_single by apply Hc. cbn [wdep].
    destruct (tidy_node M _ ks0 l r ks Hn Hc) as (Hcl & Hcr & Hd).
    destruct (decide _) as [Hag|]; [|lia].
    destruct Hc as (_ & Hwf & _ & _ & Hs). destruct (Hd k Hk I Hag) as [Hz Ho]. clear Hd.
    pose proof (desc_true ks l r k Hn Hwf Hs Hk Hag) as HkD. unfold zpart, opart in *.
    destruct (node_desc ks (tsplit l r) (tmin l)) as [|d D]; [by apply elem_of_nil in HkD|].
    destruct (node_split (d :: D) (tsplit l r)) as [zs os]. cbn [fst snd] in *.
    destruct (bit k (tsplit l r)) eqn:Hb.
    - specialize (Ho eq_refl). specialize (IHr _ Hcr Ho). destruct os; [by apply elem_of_nil in Ho|lia].
    - specialize (Hz eq_refl). specialize (IHl _ Hcl Hz). destruct zs; [by apply elem_of_nil in Hz|lia].
  Qed.
  Lemma wdep_le_mild t ks k : twf t → ksorted ks → mild (tmap t) ks → k ∈ ks → wdep t [k] ≤ wdep t ks.
  Proof using Hn.
    intros Hwf Hs [Hh|Hh] Hk.
    - eapply wdep_le; [by apply clean_old|done].
    - eapply wdep_le_tidy; [by apply tidy_old|done].
  Qed.
  (** Requests for present keys. *)
  Lemma wdep_present M ks0 t ks (b : nat) : clean M ks0 t ks → (∀ k, k ∈ ks → k ∈ tkeys t ∧ tneed t k ≤ S b) →
    wdep t ks ≤ b.
  Proof using Hn.
    revert ks b. induction t as [k' e'|l IHl r IHr]; intros ks b Hc Hk; [simpl; lia|]. cbn [wdep].
    destruct (decide (ks = [])) as [->|Hne]; [simpl; lia|].
    pose proof Hc as (_ & Hwf & _).
    destruct (clean_node M ks0 l r ks Hn Hc Hne) as (HD & Hsp & Hcl & Hcr). clear HD.
    destruct (node_desc ks (tsplit l r) (tmin l)) as [|d D]; [lia|].
    rewrite Hsp. cbn [fst snd]. clear Hsp d D.
    assert (∀ k, k ∈ zside l r ks → k ∈ tkeys l ∧ S (tneed l k) ≤ S b) as Hz.
    { intros k [Hb [_ Hin]%elem_of_list_filter]%elem_of_list_filter.
      destruct (Hk k Hin) as [Hkt Hnd]. pose proof (twf_agree l r k Hwf Hkt) as Hag.
      cbn [tneed] in Hnd. rewrite decide_True, Hb in Hnd by done. split; [|lia].
      rewrite tkeys_node in Hkt. apply elem_of_app in Hkt as [?|Hkr]; [done|].
      destruct (twf_right l r k Hwf Hkr) as (_ & _ & ?). congruence. }
    assert (∀ k, k ∈ oside l r ks → k ∈ tkeys r ∧ S (tneed r k) ≤ S b) as Ho.
    { intros k [Hb [_ Hin]%elem_of_list_filter]%elem_of_list_filter.
      destruct (Hk k Hin) as [Hkt Hnd]. pose proof (twf_agree l r k Hwf Hkt) as Hag.
      cbn [tneed] in Hnd. rewrite decide_True, Hb in Hnd by done. split; [|lia].
      rewrite tkeys_node in Hkt. apply elem_of_app in Hkt as [Hkl|?]; [|done].
      destruct (twf_left l r k Hwf Hkl) as (_ & ?). congruence. }
    assert (∀ t k, twf t → k ∈ tkeys t → 0 < tneed t k) as Hpos.
    { intros t k Ht Hkt. destruct t as [k1 e1|l1 r1]; simpl.
      - apply elem_of_list_singleton in Hkt. simpl in Hkt. subst. rewrite decide_True by done. lia.
      - rewrite decide_True by (by apply twf_agree). lia. }
    pose proof Hwf as (Hl & Hr & _).
    apply Nat.max_lub.
    - destruct (zside l r ks) as [|z Z]; [lia|].
      destruct (Hz z) as [Hz1 Hz2]; [by left|]. pose proof (Hpos l z Hl Hz1).
      destruct b as [|b]; [lia|]. apply le_n_S. apply IHl; [done|]. intros k Hin. destruct (Hz k Hin). split; [done|lia].
    - destruct (oside l r ks) as [|z Z]; [lia|].
      destruct (Ho z) as [Hz1 Hz2]; [by left|]. pose proof (Hpos r z Hr Hz1).
      destruct b as [|b]; [lia|]. apply le_n_S. apply IHr; [done|]. intros k Hin. destruct (Ho k Hin). split; [done|lia].
  Qed.
End Tins.

Section Slack.
  Context {n : nat} (Hn : 0 < n) (B : backend n) {HB : BackendOk B} (H : list bytes → arr n).
  Context {V : Type} (enc : V → res bytes) (dec : bytes → res V) (Hcodec : codec_ok enc dec).
  Implicit Types (st : b_st B) (lg L : list (list bytes)) (k r : arr n) (ks : list (arr n)) (vs : list V).
  Implicit Types (M : gmap (arr n) V) (hs : list (arr n * gmap (arr n) V)) (t : trie n) (e : bytes).
  Notation Sof L := (λ x, x ∈ L).
  Notation handle_ok := (handle_ok H enc).
  Notation hinv := (hinv B H enc).

  (** The depth limit under which the keys of a batch can be read back, for an
      insertion of [ks] under the limit [D]. *)
  Definition readable_depth (D : nat) (prev : option (arr n)) ks : nat :=
    match prev with None => length ks | Some _ => D + length ks + 1 end.

  Lemma batch_need old ks es t k : owf old → mild (omap old) ks → ksorted ks → NoDup ks →
    length ks = length es → twf t → tmap t = list_to_map (zip ks es) ∪ omap old → k ∈ ks →
    tneed t k ≤ match old with None => length ks | Some o => wdep o ks + length ks + 1 end.
  Proof using Hn.
    intros Hwf Hhz Hso Hnd Hlen Ht Htm Hk.
    destruct (elem_of_list_lookup_1 _ _ Hk) as [i Hi].
    destruct (lookup_lt_is_Some_2 es i) as [e He]. { rewrite <- Hlen. by apply lookup_lt_Some in Hi. }
    assert ((k, e) ∈ zip ks es) as Hin.
    { apply elem_of_list_lookup. exists i. rewrite lookup_zip_with, Hi. simpl. by rewrite He. }
    apply elem_of_Permutation in Hin as [ps Hps].
    assert (length ks = S (length ps)) as Hl.
    { apply Permutation_length in Hps. rewrite zip_with_length in Hps. simpl in Hps. lia. }
    assert (list_to_map (zip ks es) =@{gmap (arr n) bytes} list_to_map ps ∪ {[k := e]}) as Hmap.
    { change {[k := e]} with (list_to_map [(k, e)] : gmap (arr n) bytes). rewrite <- list_to_map_app. apply list_to_map_proper.
      - by rewrite fst_zip by lia.
      - rewrite Hps. by rewrite Permutation_app_comm. }
    destruct old as [o|]; simpl in Hwf, Htm.
    - assert (t = tinsl (tins o k e) ps) as ->.
      { apply twf_map_inj; [done|by apply tinsl_wf, tins_wf|].
        rewrite Htm, Hmap, tinsl_map, tins_map by (done || by apply tins_wf).
        by rewrite <- (assoc_L (∪)), <- insert_union_singleton_l. }
      etrans; [apply (tinsl_need Hn)|].
      + by apply tins_wf.
      + apply tins_keys; [done|by left].
      + pose proof (tins_need Hn o k e Hwf). pose proof (wdep_le_mild Hn o ks k Hwf Hso Hhz Hk). lia.
    - assert (t = tinsl (TLeaf k e) ps) as ->.
      { apply twf_map_inj; [done|by apply tinsl_wf|].
        rewrite Htm, Hmap, tinsl_map by done. rewrite (right_id_L ∅ (∪)). f_equal. }
      etrans; [apply (tinsl_need Hn); [done|by left]|]. simpl. rewrite decide_True by done. lia.
  Qed.

  Lemma insert_slack L st hs D prev M ks vs : inj_on H (Sof L) → hinv L st hs →
    prev_holds hs prev M → mild M ks →
    wp B H (Sof L) (J H (Sof L) B (b_vis B st)) (insert enc D prev ks vs)
      (λ r st', ∃ t, r = troot H t ∧ twf t ∧ stored H (b_vis B st') t ∧ encs enc (updated M ks vs) (tmap t) ∧
         (∀ k, k ∈ ks → k ∈ tkeys t ∧ tneed t k ≤ readable_depth D prev ks))
      (λ _ _, True) st.
  Proof using Hn Hcodec.
    intros Hinj Hi Hp Hb. pose proof Hi as [HJ Hh]. apply J_rebase in HJ.
    unfold insert.
    destruct (Nat.eqb_spec (length ks) (length vs)) as [Hlen|Hlen]; [|simpl; auto]. simpl.
    destruct (Nat.eqb_spec (length ks) 0) as [Hz|Hne]; [done|].
    destruct (Nat.eqb_spec (length vs) 0) as [|Hne']; [lia|]. simpl.
    destruct (prev_old H enc L _ hs prev M Hh Hp) as (old & -> & Hok & Hwf & He).
    assert (mild (omap old) (sort_keys ks)) as Hhz.
    { apply mild_sort. by apply (encs_mild enc M (omap old) ks He). }
    assert (sort_keys ks ≠ []) as Hsne.
    { intros Hnil. apply Hne. rewrite <- sort_keys_length, Hnil. done. }
    eapply wp_mono; [| |apply (insert_sorted_wp Hn H (Sof L) Hinj B enc (enc_no_panic _ _ Hcodec) D (sort_keys ks)
      (value_map_of ks vs) old st HJ Hok (sort_keys_sorted ks) Hsne)].
    - intros r st' (es & m' & P' & t & ts & -> & Hes & Hpre & Hev & HG & Hvis & Hpend & Hts & Hsort & Hlv & Hgd & Hdep).
      assert (length (sort_keys ks) = length es) as Hle by (by eapply Forall2_length).
      pose proof (result_nodup (sort_keys ks) es old Hle ts Hts Hsort) as Hnd.
      apply NoDup_app in Hnd as (Hnd & _ & _). pose proof Hnd as Hnd'. rewrite sort_keys_perm in Hnd.
      assert (twf t) as Ht.
      { apply Hgd. eapply result_good; eauto. apply sort_keys_sorted. }
      assert (tmap t = list_to_map (zip (sort_keys ks) es) ∪ omap old) as Htm.
      { eapply result_map; eauto. apply sort_keys_sorted. }
      pose proof HG as (_ & Hv' & _ & Htok). apply Forall_cons in Htok as [(Hst & _) _]. cbn [fst snd] in *.
      exists t. split_and!; [done|done|by rewrite Hvis, Hv'| |].
      { rewrite Htm. unfold updated. apply encs_union; [|done]. by apply encs_batch. }
      intros k Hk. assert (k ∈ sort_keys ks) as Hk' by (by apply elem_of_sort_keys). split.
      { apply tmap_has. rewrite Htm.
        apply lookup_union_is_Some. left. apply not_eq_None_Some.
        rewrite <- not_elem_of_list_to_map, fst_zip by lia. auto. }
      pose proof (batch_need old (sort_keys ks) es t k Hwf Hhz (sort_keys_sorted ks) Hnd' Hle Ht Htm Hk') as Hb'.
      rewrite sort_keys_length in Hb'. destruct old as [o|]; simpl in *; lia.
    - done.
    - intros k Hk. apply value_map_some; [done|done|]. by apply elem_of_sort_keys.
  Qed.

  (** C25: what holds. *)
  Theorem insert_readable st lg hs D prev M ks vs r D' : hist B H enc dec st lg hs →
    no_collision H (lg ++ hlog B H (insert enc D prev ks vs) st) →
    prev_holds hs prev M → mild M ks →
    out B H (insert enc D prev ks vs) st = ROk r →
    readable_depth D prev ks ≤ D' + 1 →
    let st' := fin B H (insert enc D prev ks vs) st in
    (∀ k, k ∈ ks → out B H (get_one dec (D' + 1) r k) st' = ROk (updated M ks vs !! k)) ∧
    (∀ ks', (∀ k, k ∈ ks' → k ∈ ks) → ∃ lm, out B H (get dec D' r ks') st' = ROk lm ∧
       ∀ k, k ∈ ks' → lm !! k = Some (updated M ks vs !! k)).
  Proof using Hn Hcodec HB.
    intros Hh Hc Hp Hb Hout HD st'. set (L := lg ++ _) in *.
    assert (hinv L st hs) as Hi by (eapply hist_hinv; eauto; intros; apply elem_of_app; by left).
    pose proof (insert_slack L st hs D prev M ks vs Hc Hi Hp Hb) as Hw.
    apply wp_run in Hw; [|intros; apply elem_of_app; by right]. rewrite Hout in Hw. fold st' in Hw.
    destruct Hw as (t & -> & Ht & Hst & He & Hk). set (M' := updated M ks vs) in *. split.
    - intros k Hin. destruct (Hk k Hin) as [_ Hnd]. unfold out.
      rewrite (get_one_run Hn) by (auto using twf_tpwf). cbn [fst].
      destruct (Nat.ltb_spec (D' + 1) (tneed t k)); [lia|].
      rewrite tlookup_tmap by done. pose proof (encs_dec enc dec Hcodec M' _ k He) as Hd.
      destruct (tmap t !! k) as [e|]; [|by rewrite Hd]. destruct Hd as (v & -> & ->). done.
    - intros ks' Hsub.
      pose proof (get_wp Hn H B dec (dec_no_panic _ _ Hcodec) D' t ks' st' Hst (twf_tpwf t Ht)) as Hw.
      apply wp_run in Hw; [|by intros].
      assert (¬ hazard (has_key (tmap t)) (sort_keys ks')) as Hhz.
      { apply hazard_present. intros k Hin. apply tmap_has, Hk, Hsub. by apply elem_of_sort_keys. }
      destruct (out B H (get dec D' (troot H t) ks') st') as [lm|er| |]; try done.
      + destruct Hw as (_ & _ & Hex & _). exists lm. split; [done|]. intros k Hin. rewrite Hex by (done || by left). f_equal.
        unfold dec_opt. pose proof (encs_dec enc dec Hcodec M' _ k He) as Hd'.
        destruct (tmap t !! k) as [e|]; [|done]. destruct Hd' as (v & -> & ->). done.
      + exfalso. destruct Hw as (_ & [(-> & Hlt)|(k & e & Hin & Hde)]).
        * assert (wdep t (sort_keys ks') ≤ D'); [|lia].
          eapply (wdep_present Hn); [apply clean_old; [done|apply sort_keys_sorted|done]|].
          intros k Hin. destruct (Hk k) as [? ?]; [|split; [done|lia]]. apply Hsub. by apply elem_of_sort_keys.
        * destruct (tleaves_decodes enc dec Hcodec t M' k e) as (v' & Hv' & HM); try done. congruence.
  Qed.

  (** How the limits of the two reads relate. *)
  Theorem reads_limits st lg hs r M D k : hist B H enc dec st lg hs → no_collision H lg → (r, M) ∈ hs →
    (∀ ks lm, mild M ks → k ∈ ks → out B H (get dec D r ks) st = ROk lm →
       out B H (get_one dec (D + 1) r k) st = ROk (M !! k)) ∧
    (∀ o, out B H (get_one dec D r k) st = ROk o → ∃ lm, out B H (get dec D r [k]) st = ROk lm).
  Proof using Hn Hcodec HB.
    intros Hh Hc Hr. destruct (hist_handle Hn B H enc dec Hcodec st lg hs r M Hh Hc Hr) as (t & Hroot & Ht & Hst & _ & He).
    cbn [fst snd] in *. subst r. split.
    - intros ks lm Hb Hin Hout.
      pose proof (get_wp Hn H B dec (dec_no_panic _ _ Hcodec) D t ks st Hst (twf_tpwf t Ht)) as Hw.
      apply wp_run in Hw; [|by intros]. rewrite Hout in Hw. 
      destruct Hw as (_ & _ & _ & Hd).
      assert (mild (tmap t) (sort_keys ks)) as Hhz.
      { apply mild_sort. by apply (encs_mild enc M (tmap t) ks He). }
      pose proof (tneed_wdep_mild Hn t (sort_keys ks) k Ht (sort_keys_sorted ks) Hhz
        ltac:(by apply elem_of_sort_keys)) as Hnd.
      unfold out. rewrite (get_one_run Hn) by (auto using twf_tpwf). cbn [fst].
      destruct (Nat.ltb_spec (D + 1) (tneed t k)); [lia|].
      rewrite tlookup_tmap by done. pose proof (encs_dec enc dec Hcodec M _ k He) as Hd'.
      destruct (tmap t !! k) as [e|]; [|by rewrite Hd']. destruct Hd' as (v & -> & ->). done.
    - intros o Hout. unfold out in Hout. rewrite (get_one_run Hn) in Hout by (auto using twf_tpwf). cbn [fst] in Hout.
      destruct (Nat.ltb_spec D (tneed t k)) as [|Hd]; [done|]. clear Hout.
      pose proof (get_wp Hn H B dec (dec_no_panic _ _ Hcodec) D t [k] st Hst (twf_tpwf t Ht)) as Hw.
      apply wp_run in Hw; [|by intros].
      set (o' := out B H (get dec D (troot H t) [k]) st) in *. clearbody o'.
      destruct o' as [lm|er| |]; try done; [by exists lm|].
      exfalso. destruct Hw as (_ & [(-> & Hlt)|(k1 & e & Hin & Hde)]).
      + change (sort_keys [k]) with [k] in Hlt. pose proof (wdep_tneed Hn t k Ht). lia.
      + destruct (tleaves_decodes enc dec Hcodec t M k1 e) as (v' & Hv' & HM); try done. congruence.
  Qed.
End Slack.
