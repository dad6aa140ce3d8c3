(** * The key-list utilities of src/utils/tree_utils.rs in bit terms *)
From Coq Require Import Strings.Byte NArith.
From stdpp Require Import prelude countable gmap sorting strings.
From Verif Require Import Model Bits.

Local Open Scope nat_scope.

Notation ksorted := (StronglySorted arr_le).

Lemma StronglySorted_lookup {A} (R : A → A → Prop) (l : list A) i j x y :
  StronglySorted R l → l !! i = Some x → l !! j = Some y → i < j → R x y.
Proof.
  intros Hs. revert i j. induction Hs as [|z l Hs IH Hz]; intros i j Hi Hj Hij; [done|].
  destruct j as [|j]; [lia|]. destruct i as [|i]; simpl in *.
  - injection Hi as ->. rewrite Forall_forall in Hz. apply Hz. by eapply elem_of_list_lookup_2.
  - eapply IH; eauto. lia.
Qed.
Lemma StronglySorted_app_inv {A} (R : A → A → Prop) (l1 l2 : list A) :
  StronglySorted R (l1 ++ l2) →
  StronglySorted R l1 ∧ StronglySorted R l2 ∧ ∀ x y, x ∈ l1 → y ∈ l2 → R x y.
Proof.
  induction l1 as [|z l1 IH]; simpl; intros Hs.
  - repeat split; [constructor|done|]. intros x y Hx. by apply elem_of_nil in Hx.
  - apply StronglySorted_inv in Hs as [Hs Hz]. destruct (IH Hs) as (H1&H2&H3).
    rewrite Forall_app in Hz. destruct Hz as [Hz1 Hz2]. repeat split.
    + by constructor.
    + done.
    + intros x y [->|Hx]%elem_of_cons Hy; [|by apply H3].
      rewrite Forall_forall in Hz2. by apply Hz2.
Qed.
Lemma StronglySorted_app_intro {A} (R : A → A → Prop) (l1 l2 : list A) :
  StronglySorted R l1 → StronglySorted R l2 → (∀ x y, x ∈ l1 → y ∈ l2 → R x y) →
  StronglySorted R (l1 ++ l2).
Proof.
  induction l1 as [|z l1 IH]; simpl; intros H1 H2 H3; [done|].
  apply StronglySorted_inv in H1 as [H1 Hz]. constructor.
  - apply IH; [done|done|]. intros. apply H3; [by right|done].
  - apply Forall_app. split; [done|]. apply Forall_forall. intros y Hy. apply H3; [by left|done].
Qed.
Lemma StronglySorted_filter {A} (R : A → A → Prop) (P : A → Prop) `{∀ x, Decision (P x)} (l : list A) :
  StronglySorted R l → StronglySorted R (filter P l).
Proof.
  induction 1 as [|x l Hs IH Hx]; [constructor|].
  rewrite filter_cons. destruct (decide (P x)); [|done].
  constructor; [done|]. rewrite Forall_forall in *. intros y Hy.
  apply elem_of_list_filter in Hy as [_ Hy]. by apply Hx.
Qed.

(** ** Binary search *)
Section Search.
  Context {A : Type} (f : A → comparison) (xs : list A).
  Hypothesis Hmono : ∀ i j x y, i < j → xs !! i = Some x → xs !! j = Some y →
    (f x = Gt → f y = Gt) ∧ (f y = Lt → f x = Lt).

  Lemma binary_search_by_spec fuel left right :
    right - left ≤ fuel → left ≤ right → right ≤ length xs →
    (∀ j x, j < left → xs !! j = Some x → f x = Lt) →
    (∀ j x, right ≤ j → xs !! j = Some x → f x = Gt) →
    match binary_search_by f xs fuel left right with
    | inl i => ∃ x, xs !! i = Some x ∧ f x = Eq
    | inr i => i ≤ length xs ∧
        (∀ j x, j < i → xs !! j = Some x → f x = Lt) ∧
        (∀ j x, i ≤ j → xs !! j = Some x → f x = Gt)
    end.
  Proof.
    revert left right. induction fuel as [|fuel IH]; intros left right Hf Hlr Hr HL HR; cbn [binary_search_by].
    - assert (left = right) by lia. subst. auto.
    - destruct (Nat.ltb_spec left right) as [Hlt|Hge].
      2:{ assert (left = right) by lia. subst. auto. }
      assert ((right - left) / 2 < right - left) by (apply Nat.div_lt; lia).
      set (mid := left + (right - left) / 2) in *.
      destruct (xs !! mid) as [x|] eqn:Hx.
      2:{ apply lookup_ge_None in Hx. lia. }
      destruct (f x) eqn:Hfx.
      + by exists x.
      + apply IH; [lia|lia|lia| |done].
        intros j y Hj Hy. destruct (decide (j = mid)) as [->|]; [congruence|].
        assert (j < mid) as Hjm by lia.
        destruct (Hmono j mid y x Hjm Hy Hx). auto.
      + apply IH; [lia|lia|lia|done|].
        intros j y Hj Hy. destruct (decide (j = mid)) as [->|]; [congruence|].
        assert (mid < j) as Hjm by lia.
        destruct (Hmono mid j x y Hjm Hx Hy). auto.
  Qed.
End Search.

Lemma binary_search_by_le {A} (f : A → comparison) xs fuel left right :
  left ≤ right → right ≤ length xs →
  match binary_search_by f xs fuel left right with
  | inl i => i ≤ length xs | inr i => i ≤ length xs end.
Proof.
  revert left right. induction fuel as [|fuel IH]; intros left right Hlr Hr; cbn [binary_search_by]; [lia|].
  destruct (Nat.ltb_spec left right) as [Hlt|Hge]; [|lia].
  assert ((right - left) / 2 < right - left) by (apply Nat.div_lt; lia).
  set (mid := left + (right - left) / 2) in *.
  destruct (xs !! mid) as [x|] eqn:Hx; [|lia].
  destruct (f x); [lia|apply IH; lia|apply IH; lia].
Qed.
Lemma partition_point_le {A} (p : A → bool) xs : partition_point p xs ≤ length xs.
Proof.
  unfold partition_point.
  pose proof (binary_search_by_le (λ x, if p x then Lt else Gt) xs (length xs) 0 (length xs)
    ltac:(lia) ltac:(lia)) as Hle.
  destruct (binary_search_by _ _ _ _ _); done.
Qed.
Lemma partition_point_spec {A} (p : A → bool) xs :
  (∀ i j x y, i < j → xs !! i = Some x → xs !! j = Some y → p y = true → p x = true) →
  (∀ j x, j < partition_point p xs → xs !! j = Some x → p x = true) ∧
  (∀ j x, partition_point p xs ≤ j → xs !! j = Some x → p x = false).
Proof.
  intros Hm. unfold partition_point.
  assert (∀ i j x y, i < j → xs !! i = Some x → xs !! j = Some y →
    ((if p x then Lt else Gt) = Gt → (if p y then Lt else Gt) = Gt) ∧
    ((if p y then Lt else Gt) = Lt → (if p x then Lt else Gt) = Lt)) as Hm'.
  { intros i j x y Hij Hx Hy. specialize (Hm i j x y Hij Hx Hy).
    destruct (p x), (p y); try done. by specialize (Hm eq_refl). }
  pose proof (binary_search_by_spec (λ x, if p x then Lt else Gt) xs Hm' (length xs) 0 (length xs)) as Hs.
  specialize (Hs ltac:(lia) ltac:(lia) ltac:(lia)).
  specialize (Hs ltac:(intros; lia)).
  specialize (Hs ltac:(intros j x Hj Hx; apply lookup_lt_Some in Hx; lia)).
  destruct (binary_search_by _ _ _ _ _) as [i|i].
  - destruct Hs as (x & _ & Hx). by destruct (p x).
  - destruct Hs as (_ & H1 & H2). split; intros j x Hj Hx.
    + specialize (H1 j x Hj Hx). by destruct (p x).
    + specialize (H2 j x Hj Hx). by destruct (p x).
Qed.

(** Without any assumption on the list: the two elements around the point. *)
Lemma partition_point_around {A} (p : A → bool) xs :
  (partition_point p xs = 0 ∨ ∃ x, xs !! (partition_point p xs - 1) = Some x ∧ p x = true) ∧
  (partition_point p xs = length xs ∨ ∃ x, xs !! partition_point p xs = Some x ∧ p x = false).
Proof.
  unfold partition_point.
  assert (∀ fuel left right, right - left ≤ fuel → left ≤ right → right ≤ length xs →
    (left = 0 ∨ ∃ x, xs !! (left - 1) = Some x ∧ p x = true) →
    (right = length xs ∨ ∃ x, xs !! right = Some x ∧ p x = false) →
    match binary_search_by (λ x, if p x then Lt else Gt) xs fuel left right with
    | inl i | inr i => (i = 0 ∨ ∃ x, xs !! (i - 1) = Some x ∧ p x = true) ∧
                       (i = length xs ∨ ∃ x, xs !! i = Some x ∧ p x = false)
    end) as Hg.
  { induction fuel as [|fuel IH]; intros left right Hf Hlr Hr HL HR; cbn [binary_search_by].
    - assert (left = right) by lia. subst. auto.
    - destruct (Nat.ltb_spec left right) as [Hlt|Hge].
      2:{ assert (left = right) by lia. subst. auto. }
      assert ((right - left) / 2 < right - left) by (apply Nat.div_lt; lia).
      set (mid := left + (right - left) / 2) in *.
      destruct (xs !! mid) as [x|] eqn:Hx.
      2:{ apply lookup_ge_None in Hx. lia. }
      destruct (p x) eqn:Hpx.
      + apply IH; [lia|lia|lia| |done]. right. exists x.
        by replace (S mid - 1) with mid by lia; replace (mid + 1 - 1) with mid by lia.
      + apply IH; [lia|lia|lia|done|]. right. by exists x. }
  specialize (Hg (length xs) 0 (length xs) ltac:(lia) ltac:(lia) ltac:(lia) ltac:(by left) ltac:(by left)).
  destruct (binary_search_by _ _ _ _ _); done.
Qed.

Section KeyLists.
  Context {n : nat}.
  Implicit Types (k a b c bk : arr n) (ks : list (arr n)).

  Lemma sort_keys_perm ks : sort_keys ks ≡ₚ ks.
  Proof. apply merge_sort_Permutation. Qed.
  Lemma sort_keys_sorted ks : ksorted (sort_keys ks).
  Proof. apply (StronglySorted_merge_sort arr_le). Qed.
  Lemma elem_of_sort_keys k ks : k ∈ sort_keys ks ↔ k ∈ ks.
  Proof. by rewrite sort_keys_perm. Qed.
  Lemma sort_keys_length ks : length (sort_keys ks) = length ks.
  Proof. by rewrite sort_keys_perm. Qed.
  Lemma sort_keys_id ks : ksorted ks → sort_keys ks = ks.
  Proof.
    intros Hs. apply (Sorted_unique arr_le).
    - apply StronglySorted_Sorted, sort_keys_sorted.
    - by apply StronglySorted_Sorted.
    - apply sort_keys_perm.
  Qed.
  Lemma sort_keys_proper ks1 ks2 : ks1 ≡ₚ ks2 → sort_keys ks1 = sort_keys ks2.
  Proof.
    intros Hp. apply (Sorted_unique arr_le).
    - apply StronglySorted_Sorted, sort_keys_sorted.
    - apply StronglySorted_Sorted, sort_keys_sorted.
    - by rewrite !sort_keys_perm.
  Qed.

  (** [binary_search] on sorted keys. *)
  Lemma binary_search_spec ks k : ksorted ks →
    match binary_search ks k with
    | Some i => ks !! i = Some k
    | None => k ∉ ks
    end.
  Proof.
    intros Hs. unfold binary_search.
    assert (∀ i j x y, i < j → ks !! i = Some x → ks !! j = Some y →
      (arr_cmp x k = Gt → arr_cmp y k = Gt) ∧ (arr_cmp y k = Lt → arr_cmp x k = Lt)) as Hm.
    { intros i j x y Hij Hx Hy.
      pose proof (StronglySorted_lookup arr_le ks i j x y Hs Hx Hy Hij) as Hle.
      apply arr_le_iff in Hle as [Hlt| ->]; [|done]. split.
      - rewrite (arr_cmp_opp k x), (arr_cmp_opp k y).
        intros Hg. destruct (arr_cmp k x) eqn:Hkx; try done.
        by rewrite (klt_trans k x y Hkx Hlt).
      - intros Hyk. apply (klt_trans x y k Hlt Hyk). }
    pose proof (binary_search_by_spec (λ x, arr_cmp x k) ks Hm (length ks) 0 (length ks)) as Hb.
    specialize (Hb ltac:(lia) ltac:(lia) ltac:(lia)).
    specialize (Hb ltac:(intros; lia)).
    specialize (Hb ltac:(intros j x Hj Hx; apply lookup_lt_Some in Hx; lia)).
    destruct (binary_search_by _ _ _ _ _) as [i|i].
    - destruct Hb as (x & Hx & Hc). apply arr_cmp_eq in Hc. by subst.
    - destruct Hb as (_ & H1 & H2). intros [j Hj]%elem_of_list_lookup.
      destruct (decide (j < i)) as [Hlt|Hge].
      + specialize (H1 j k Hlt Hj). by rewrite arr_cmp_refl in H1.
      + specialize (H2 j k ltac:(lia) Hj). by rewrite arr_cmp_refl in H2.
  Qed.

  (** ** [calc_min_split_index] *)
  Lemma ksorted_head_le ks k0 k : ksorted ks → head ks = Some k0 → k ∈ ks → arr_le k0 k.
  Proof.
    intros Hs Hh Hk. destruct ks as [|x ks]; [done|]. injection Hh as ->.
    apply elem_of_cons in Hk as [->|Hk]; [reflexivity|].
    apply StronglySorted_inv in Hs as [_ Hf]. rewrite Forall_forall in Hf. auto.
  Qed.
  Lemma ksorted_last_le ks k1 k : ksorted ks → last ks = Some k1 → k ∈ ks → arr_le k k1.
  Proof.
    intros Hs Hl Hk. apply last_Some in Hl as [l' ->].
    apply StronglySorted_app_inv in Hs as (_&_&Hle).
    apply elem_of_app in Hk as [Hk|Hk].
    - apply Hle; [done|]. by apply elem_of_list_singleton.
    - apply elem_of_list_singleton in Hk as ->. reflexivity.
  Qed.

  Lemma arr_le_klcp a b c : arr_le a b → arr_le b c → klcp a c ≤ klcp a b ∧ klcp a c ≤ klcp b c.
  Proof.
    rewrite !arr_le_iff. intros [H1| ->] [H2| ->].
    - rewrite (klcp_sorted a b c) by done. lia.
    - rewrite klcp_refl. split; [done|apply klcp_le].
    - rewrite klcp_refl. split; [apply klcp_le|done].
    - rewrite klcp_refl. lia.
  Qed.

  Lemma calc_min_split_index_spec ks bk : 0 < n → ksorted ks → ks ≠ [] →
    ∃ m, calc_min_split_index ks bk = Ok m ∧ m < 8 * n ∧
      ((∀ k, k ∈ ks → k = bk) ∧ m = 8 * n - 1 ∨
       (∀ k, k ∈ ks → m ≤ klcp k bk) ∧ (∃ k, k ∈ ks ∧ klcp k bk = m)).
  Proof.
    intros Hn Hs Hne. unfold calc_min_split_index.
    destruct ks as [|k0 ks']; [done|]. set (ks := k0 :: ks') in *.
    assert (head ks = Some k0) as Hh by done. rewrite Hh.
    destruct (last ks) as [k1|] eqn:Hl; [|by apply last_None in Hl].
    assert (k0 ∈ ks) as Hk0 by (by left).
    assert (k1 ∈ ks) as Hk1.
    { apply last_Some in Hl as [l' ->]. apply elem_of_app. right. by left. }
    pose proof (λ k, ksorted_head_le ks k0 k Hs Hh) as Hmin.
    pose proof (λ k, ksorted_last_le ks k1 k Hs Hl) as Hmax.
    clearbody ks. clear Hh Hl.
    assert (∀ a b, arr_le a b → (∀ k, k ∈ ks → arr_le a k ∧ arr_le k b) → arr_le a bk → arr_le bk b →
      (a = bk ∧ b ∈ ks ∨ b = bk ∧ a ∈ ks ∨ a ∈ ks ∧ b ∈ ks) →
      ∃ m, Ok (A:=nat) (default (n * 8 - 1) (first_diff 0 a b)) = Ok m ∧ m < 8 * n ∧
      ((∀ k, k ∈ ks → k = bk) ∧ m = 8 * n - 1 ∨
       (∀ k, k ∈ ks → m ≤ klcp k bk) ∧ (∃ k, k ∈ ks ∧ klcp k bk = m))) as Hgen.
    { intros a b Hab Hall Hab1 Hab2 Hcase. rewrite first_diff_key.
      destruct (decide (a = b)) as [<-|Hd]; simpl.
      - exists (n * 8 - 1). split_and!; [done|lia|]. left. split; [|lia].
        intros k Hk. destruct (Hall k Hk) as [H1 H2].
        assert (k = a) as -> by (by apply (anti_symm arr_le)).
        by apply (anti_symm arr_le).
      - exists (klcp a b). split_and!; [done|by apply klcp_lt|]. right. split.
        + intros k Hk. destruct (Hall k Hk) as [H1 H2].
          destruct (arr_le_klcp a k b H1 H2) as [H3 _].
          destruct (arr_le_klcp a bk b Hab1 Hab2) as [H4 _].
          pose proof (klcp_ultra k a bk). rewrite (klcp_sym k a) in *. lia.
        + destruct Hcase as [[-> Hb]|[[-> Ha]|[Ha Hb]]].
          * exists b. split; [done|apply klcp_sym].
          * exists a. done.
          * assert (klcp a b < 8 * n) as Hlt by (by apply klcp_lt).
            destruct (arr_le_klcp a bk b Hab1 Hab2) as [H4 H5].
            pose proof (klcp_differ a b Hlt) as Hdf.
            destruct (decide (klcp a bk = klcp a b)) as [He|Hne'].
            -- exists a. auto.
            -- exists b. split; [done|]. rewrite (klcp_sym b bk).
               pose proof (klcp_ultra a bk b). lia. }
    destruct (arr_ltb bk k0) eqn:Hb0.
    - apply arr_ltb_spec in Hb0. apply Hgen.
      + apply arr_le_iff. left. specialize (Hmin k1 Hk1). apply arr_le_iff in Hmin as [?| <-]; [|done].
        by eapply klt_trans.
      + intros k Hk. split; [|auto]. etrans; [|by apply (Hmin k)]. apply arr_le_iff. auto.
      + reflexivity.
      + etrans; [|by apply (Hmax k0)]. apply arr_le_iff. auto.
      + auto.
    - apply arr_ltb_false in Hb0. destruct (arr_ltb k1 bk) eqn:Hb1.
      + apply arr_ltb_spec in Hb1. apply Hgen.
        * etrans; [by apply (Hmin k1)|]. apply arr_le_iff. auto.
        * intros k Hk. split; [auto|]. etrans; [by apply Hmax|]. apply arr_le_iff. auto.
        * etrans; [by apply (Hmin k1)|]. apply arr_le_iff. auto.
        * reflexivity.
        * auto.
      + apply arr_ltb_false in Hb1. apply Hgen.
        * by apply Hmin.
        * auto.
        * apply arr_le_iff. destruct (klt_total k0 bk) as [|[|]]; naive_solver.
        * apply arr_le_iff. destruct (klt_total bk k1) as [|[|]]; naive_solver.
        * auto.
  Qed.

  (** ** [check_descendants] *)

  (** The test actually performed on a key whose first difference with the
      branch key is at bit [q], when the minimum split index is [m] and the
      branch splits at bit [s]. *)
  Definition weak (m s q : nat) : bool := s <=? max q (8 * (q / 8) + m mod 8).

  Lemma elem_of_step8 m s j : j ∈ step8 m s ↔ ∃ i, j = m + 8 * i ∧ j < s.
  Proof.
    unfold step8. rewrite elem_of_list_fmap. split.
    - intros (i & -> & Hi). exists i. split; [done|]. apply elem_of_seq in Hi as [_ Hi].
      rewrite Nat.add_0_l in Hi.
      assert (8 * ((s - m + 7) / 8) ≤ s - m + 7) by (apply Nat.mul_div_le; lia). lia.
    - intros (i & -> & Hi). exists i. split; [done|]. apply elem_of_seq. split; [lia|]. rewrite Nat.add_0_l.
      apply Nat.div_le_lower_bound; lia.
  Qed.
  Lemma div8_add m i : (m + 8 * i) / 8 = m / 8 + i.
  Proof. rewrite (Nat.mul_comm 8). by rewrite Nat.div_add by lia. Qed.

  Lemma klcp_byte a b B x y : (a : bytes) !! B = Some x → (b : bytes) !! B = Some y → x ≠ y →
    klcp a b ≤ 8 * B + lcp (byte_bits x) (byte_bits y) ∧
    (klcp a b / 8 = B → klcp a b = 8 * B + lcp (byte_bits x) (byte_bits y)).
  Proof.
    unfold klcp. generalize (arr_list a) (arr_list b). clear a b.
    intros l1 l2. revert l2 B. induction l1 as [|u l1 IH]; intros [|v l2] B; try done.
    intros Hx Hy Hne. cbn [bits].
    destruct (decide (u = v)) as [<-|Huv].
    - destruct B as [|B]; simpl in Hx, Hy; [congruence|].
      rewrite lcp_app_eq, byte_bits_length.
      destruct (IH l2 B Hx Hy Hne) as [H1 H2]. split; [lia|].
      intros Hd. assert (lcp (bits l1) (bits l2) / 8 = B) as HB.
      { assert ((lcp (bits l1) (bits l2) + 1 * 8) / 8 = S B) as Hd2.
        { rewrite <- Hd. f_equal. lia. }
        rewrite Nat.div_add in Hd2 by lia. lia. }
      specialize (H2 HB). lia.
    - rewrite lcp_app_ne by (done || (intros ?; by apply Huv, byte_bits_inj)).
      assert (lcp (byte_bits u) (byte_bits v) < 8) as Hlt.
      { apply (lcp_lt (byte_bits u)); [done|]. intros ?; by apply Huv, byte_bits_inj. }
      destruct B as [|B]; simpl in Hx, Hy.
      + simplify_eq. split; lia.
      + split; [lia|]. rewrite Nat.div_small by lia. done.
  Qed.

  Lemma klcp_byte_ne a b : klcp a b < 8 * n →
    ∃ x y, (a : bytes) !! (klcp a b / 8) = Some x ∧ (b : bytes) !! (klcp a b / 8) = Some y ∧ x ≠ y.
  Proof.
    intros Hlt. destruct (bit_byte a _ Hlt) as (x & Hx & Hbx).
    destruct (bit_byte b _ Hlt) as (y & Hy & Hby).
    exists x, y. split_and!; [done|done|]. intros ->.
    pose proof (klcp_differ a b Hlt). congruence.
  Qed.

  Lemma is_descendant_true js s bk k :
    (∀ j, j ∈ js → j / 8 < n) →
    (∀ j x y, j ∈ js → (bk : bytes) !! (j / 8) = Some x → (k : bytes) !! (j / 8) = Some y →
       x ≠ y → s ≤ 8 * (j / 8) + lcp (byte_bits x) (byte_bits y)) →
    is_descendant js s bk k = Ok true.
  Proof.
    induction js as [|j js IH]; intros Hb Hall; [done|]. cbn [is_descendant].
    destruct (lookup_lt_is_Some_2 (bk : bytes) (j / 8)) as [x Hx].
    { rewrite arr_length. apply Hb. by left. }
    destruct (lookup_lt_is_Some_2 (k : bytes) (j / 8)) as [y Hy].
    { rewrite arr_length. apply Hb. by left. }
    unfold index. rewrite Hx, Hy. cbn [mbind res_bind].
    assert (is_descendant js s bk k = Ok true) as IH'.
    { apply IH; [intros; apply Hb; by right|]. intros j' x' y' Hj'. apply Hall. by right. }
    destruct (decide (x = y)) as [Heq|Hne]; [done|].
    rewrite byte_split_bit by done.
    specialize (Hall j x y ltac:(by left) Hx Hy Hne).
    destruct (Nat.ltb_spec (8 * (j / 8) + lcp (byte_bits x) (byte_bits y)) s); [lia|done].
  Qed.
  Lemma is_descendant_false js s bk k j x y :
    (∀ j, j ∈ js → j / 8 < n) →
    j ∈ js → (bk : bytes) !! (j / 8) = Some x → (k : bytes) !! (j / 8) = Some y →
    x ≠ y → 8 * (j / 8) + lcp (byte_bits x) (byte_bits y) < s →
    is_descendant js s bk k = Ok false.
  Proof.
    intros Hb. induction js as [|j' js IH]; intros Hj Hx Hy Hne Hlt; [by apply elem_of_nil in Hj|].
    cbn [is_descendant].
    destruct (lookup_lt_is_Some_2 (bk : bytes) (j' / 8)) as [x' Hx'].
    { rewrite arr_length. apply Hb. by left. }
    destruct (lookup_lt_is_Some_2 (k : bytes) (j' / 8)) as [y' Hy'].
    { rewrite arr_length. apply Hb. by left. }
    unfold index. rewrite Hx', Hy'. cbn [mbind res_bind].
    apply elem_of_cons in Hj as [->|Hj].
    - assert (x' = x) as -> by congruence. assert (y' = y) as -> by congruence.
      rewrite decide_False by done. rewrite byte_split_bit by done.
      destruct (Nat.ltb_spec (8 * (j' / 8) + lcp (byte_bits x) (byte_bits y)) s); [done|lia].
    - assert (is_descendant js s bk k = Ok false) as IH'.
      { apply IH; auto. intros; apply Hb; by right. }
      destruct (decide (x' = y')); [done|].
      destruct (split_bit_at (j' / 8) x' y' <? s); done.
  Qed.

  (** The test of a key that agrees with the branch key up to [m]. *)
  Lemma is_descendant_weak m s bk k : s ≤ 8 * n → m ≤ klcp k bk →
    is_descendant (step8 m s) s bk k = Ok (weak m s (klcp k bk)).
  Proof.
    intros Hs Hm. set (q := klcp k bk) in *.
    assert (∀ j, j ∈ step8 m s → j / 8 < n) as Hb.
    { intros j Hj. apply elem_of_step8 in Hj as (i & _ & Hj).
      apply Nat.div_lt_upper_bound; lia. }
    unfold weak. destruct (Nat.leb_spec s (max q (8 * (q / 8) + m mod 8))) as [Hw|Hw].
    - apply is_descendant_true; [done|].
      intros j x y Hj Hx Hy Hne.
      destruct (klcp_byte k bk (j / 8) y x Hy Hx ltac:(done)) as [H1 H2]. fold q in H1, H2.
      rewrite (lcp_sym (byte_bits x)).
      destruct (decide (s ≤ q)) as [|Hsq]; [lia|].
      assert (s ≤ 8 * (q / 8) + m mod 8) as Hw' by lia.
      apply elem_of_step8 in Hj as (i & -> & Hj).
      rewrite div8_add in *.
      pose proof (Nat.div_mod_eq m 8) as Hdm.
      pose proof (Nat.div_mod_eq q 8) as Hdq.
      (* covered bytes are strictly before the byte of q *)
      assert (m / 8 + i < q / 8) as HB by lia.
      exfalso. assert (8 * (m / 8 + i) + lcp (byte_bits y) (byte_bits x) < 8 * (q / 8)) as Hc.
      { assert (lcp (byte_bits y) (byte_bits x) < 8).
        { apply (lcp_lt (byte_bits y)); [done|]. intros ?%byte_bits_inj. congruence. }
        lia. }
      lia.
    - assert (q < s) as Hqs by lia.
      assert (8 * (q / 8) + m mod 8 < s) as Hcov by lia.
      destruct (klcp_byte_ne k bk) as (y & x & Hy & Hx & Hne); [fold q; lia|]. fold q in Hy, Hx.
      set (i := q / 8 - m / 8).
      assert (m / 8 ≤ q / 8) as Hle by (apply Nat.div_le_mono; lia).
      assert ((m + 8 * i) / 8 = q / 8) as Hi by (rewrite div8_add; unfold i; lia).
      pose proof (Nat.div_mod_eq m 8) as Hdm.
      eapply (is_descendant_false _ _ _ _ (m + 8 * i) x y); rewrite ?Hi; auto.
      + apply elem_of_step8. exists i. split; [done|]. unfold i. lia.
      + destruct (klcp_byte k bk (q / 8) y x Hy Hx Hne) as [_ H2]. fold q in H2.
        rewrite (lcp_sym (byte_bits x)). rewrite <- H2 by done. done.
  Qed.

  (** Runs of a boolean predicate. *)
  Lemma descendant_range_skip js s bk len (p : arr n → bool) l1 l2 i :
    (∀ k, k ∈ l1 ++ l2 → is_descendant js s bk k = Ok (p k)) →
    (∀ k, k ∈ l1 → p k = false) →
    descendant_range js s bk len (l1 ++ l2) i 0 false =
    descendant_range js s bk len l2 (i + length l1) 0 false.
  Proof.
    revert i. induction l1 as [|k l1 IH]; intros i Hd Hf; simpl.
    - f_equal. lia.
    - rewrite (Hd k) by (by left). cbn [mbind res_bind].
      rewrite (Hf k) by (by left). simpl.
      rewrite IH; [f_equal; lia| |]; intros; [apply Hd|apply Hf]; by right.
  Qed.
  Lemma descendant_range_found js s bk len (p : arr n → bool) l1 l2 i start :
    (∀ k, k ∈ l1 ++ l2 → is_descendant js s bk k = Ok (p k)) →
    (∀ k, k ∈ l1 → p k = true) →
    (∀ k, head l2 = Some k → p k = false) →
    l1 ++ l2 ≠ [] → i + length (l1 ++ l2) = len →
    descendant_range js s bk len (l1 ++ l2) i start true = Ok (start, i + length l1).
  Proof.
    revert i. induction l1 as [|k l1 IH]; intros i Hd Ht Hh Hne Hlen; simpl.
    - destruct l2 as [|k l2]; [done|]. simpl. rewrite (Hd k) by (by left). cbn [mbind res_bind].
      rewrite (Hh k) by done. simpl. do 2 f_equal. lia.
    - rewrite (Hd k) by (by left). cbn [mbind res_bind]. rewrite (Ht k) by (by left). simpl.
      simpl in Hlen.
      destruct (decide (l1 ++ l2 = [])) as [He|Hne2].
      + rewrite He in Hlen. simpl in Hlen.
        assert (l1 = []) as -> by (destruct l1; done).
        destruct (Nat.eqb_spec i (len - 1)); [|lia]. simpl. do 2 f_equal.
      + assert (length (l1 ++ l2) ≠ 0) by (by destruct (l1 ++ l2)).
        destruct (Nat.eqb_spec i (len - 1)); [lia|]. simpl.
        rewrite IH; [do 2 f_equal; lia|..]; auto.
        * intros; apply Hd; by right.
        * intros; apply Ht; by right.
        * lia.
  Qed.

  Lemma split_runs (p : arr n → bool) ks :
    ∃ l1 l2 l3, ks = l1 ++ l2 ++ l3 ∧ (∀ k, k ∈ l1 → p k = false) ∧ (∀ k, k ∈ l2 → p k = true) ∧
      (∀ k, head l3 = Some k → p k = false) ∧ (l2 = [] → l3 = []).
  Proof.
    induction ks as [|k ks IH].
    - exists [], [], []. split_and!; [done|set_solver..|done].
    - destruct IH as (l1 & l2 & l3 & -> & H1 & H2 & H3 & H4).
      destruct (p k) eqn:Hp.
      + destruct l1 as [|k' l1].
        * exists [], (k :: l2), l3. simpl. split_and!; [done|set_solver| |done|done].
          intros k'' [->|?]%elem_of_cons; auto.
        * exists [], [k], (k' :: l1 ++ l2 ++ l3). split_and!; [done|set_solver| | |done].
          -- by intros ? ->%elem_of_list_singleton.
          -- intros ? [= <-]. apply H1. by left.
      + exists (k :: l1), l2, l3. split_and!; [done| |done|done|done].
        intros k'' [->|?]%elem_of_cons; auto.
  Qed.

  (** [check_descendants] selects the keys passing the weak test, provided
      they are consecutive. *)
  Lemma check_descendants_run js_m s bk (p : arr n → bool) ks :
    (∀ k, k ∈ ks → is_descendant (step8 js_m s) s bk k = Ok (p k)) →
    (∀ i j l a b c, i < j → j < l → ks !! i = Some a → ks !! j = Some b → ks !! l = Some c →
       p a = true → p c = true → p b = true) →
    check_descendants ks s bk js_m = Ok (filter (λ k, p k = true) ks).
  Proof.
    intros Hd Hconv. unfold check_descendants.
    destruct (split_runs p ks) as (l1 & l2 & l3 & Hks & H1 & H2 & H3 & H4).
    assert (∀ k, k ∈ l3 → p k = false) as H3'.
    { intros k Hk. destruct l3 as [|k3 l3]; [by apply elem_of_nil in Hk|].
      apply elem_of_cons in Hk as [->|Hk]; [by apply H3|].
      destruct l2 as [|k2 l2]; [by specialize (H4 eq_refl)|].
      apply elem_of_list_lookup in Hk as [j Hj].
      destruct (p k) eqn:Hpk; [|done]. exfalso.
      assert (p k3 = true) as Hp3.
      { apply (Hconv (length l1) (length l1 + length (k2 :: l2)) (length l1 + length (k2 :: l2) + S j) k2 k3 k).
        - simpl; lia.
        - lia.
        - rewrite Hks. rewrite lookup_app_r by lia. by rewrite Nat.sub_diag.
        - rewrite Hks. rewrite lookup_app_r by lia.
          rewrite lookup_app_r by (simpl; lia).
          replace (_ - _ - _) with 0 by lia. done.
        - rewrite Hks. rewrite lookup_app_r by lia.
          rewrite lookup_app_r by (simpl; lia).
          replace (_ - _ - _) with (S j) by lia. done.
        - apply H2. by left.
        - done. }
      by rewrite H3 in Hp3. }
    assert (filter (λ k, p k = true) ks = l2) as ->.
    { rewrite Hks, !filter_app.
      assert (∀ l, (∀ k, k ∈ l → p k = false) → filter (λ k, p k = true) l = []) as Hnil.
      { intros l Hl. induction l as [|x l IH]; [done|]. rewrite filter_cons_False.
        - apply IH. intros; apply Hl; by right.
        - rewrite Hl by (by left). done. }
      rewrite (Hnil l1), (Hnil l3) by done. rewrite app_nil_r. simpl.
      clear -H2. induction l2 as [|x l IH]; [done|]. rewrite filter_cons_True.
      - f_equal. apply IH. intros; apply H2; by right.
      - apply H2. by left. }
    rewrite Hks at 2. rewrite (descendant_range_skip _ _ _ _ p).
    2:{ intros k Hk. apply Hd. by rewrite Hks. }
    2:{ done. }
    destruct l2 as [|k2 l2].
    { rewrite H4 by done. simpl. unfold slice. simpl. rewrite take_0. done. }
    cbn [descendant_range app].
    rewrite Hd by (rewrite Hks; set_solver). cbn [mbind res_bind].
    rewrite H2 by (by left). simpl.
    assert (length ks = length l1 + S (length l2 + length l3)) as Hlen.
    { rewrite Hks, !app_length. simpl. lia. }
    destruct (decide (l2 ++ l3 = [])) as [He|Hne].
    - assert (length l2 + length l3 = 0) by (rewrite <- app_length, He; done).
      destruct (Nat.eqb_spec (length l1) (length ks - 1)); [|lia].
      simpl. unfold slice.
      destruct (Nat.leb_spec (length l1) (length l1 + 1)); [|lia].
      destruct (Nat.leb_spec (length l1 + 1) (length ks)); [|lia]. simpl.
      replace (length l1 + 1 - length l1) with 1 by lia.
      assert (l2 = []) as -> by (destruct l2; [done|simpl in *; lia]).
      rewrite Hks, drop_app. done.
    - assert (length l2 + length l3 ≠ 0).
      { rewrite <- app_length. by destruct (l2 ++ l3). }
      destruct (Nat.eqb_spec (length l1) (length ks - 1)); [lia|]. simpl.
      rewrite (descendant_range_found _ _ _ _ p).
      + cbn [mbind res_bind fst snd]. unfold slice.
        destruct (Nat.leb_spec (length l1) (length l1 + 1 + length l2)); [|lia].
        destruct (Nat.leb_spec (length l1 + 1 + length l2) (length ks)); [|lia]. simpl.
        replace (length l1 + 1 + length l2 - length l1) with (length (k2 :: l2)) by (simpl; lia).
        rewrite Hks, drop_app, take_app. done.
      + intros k Hk. apply Hd. rewrite Hks. set_solver.
      + intros; apply H2; by right.
      + done.
      + done.
      + rewrite app_length. lia.
  Qed.

  Lemma weak_mono m s q q' : q ≤ q' → weak m s q = true → weak m s q' = true.
  Proof.
    unfold weak. rewrite !Nat.leb_le. intros Hq Hw.
    assert (q / 8 ≤ q' / 8) by (apply Nat.div_le_mono; lia). lia.
  Qed.
  (** A key between two keys agrees with [bk] at least as long as one of them. *)
  Lemma klcp_between a b c bk : arr_le a b → arr_le b c →
    min (klcp a bk) (klcp c bk) ≤ klcp b bk.
  Proof.
    intros Hab Hbc.
    destruct (arr_le_klcp a b c Hab Hbc) as [H1 _].
    pose proof (klcp_ultra a bk c). rewrite (klcp_sym bk c) in *.
    pose proof (klcp_ultra b a bk). rewrite (klcp_sym b a) in *. lia.
  Qed.

  Lemma check_descendants_weak ks s bk m : ksorted ks → s ≤ 8 * n →
    (∀ k, k ∈ ks → m ≤ klcp k bk) →
    check_descendants ks s bk m = Ok (filter (λ k, weak m s (klcp k bk) = true) ks).
  Proof.
    intros Hs Hsn Hm.
    apply (check_descendants_run m s bk (λ k, weak m s (klcp k bk))).
    - intros k Hk. apply is_descendant_weak; auto.
    - intros i j l a b c Hij Hjl Ha Hb Hc Hpa Hpc.
      pose proof (StronglySorted_lookup _ _ _ _ _ _ Hs Ha Hb Hij) as Hab.
      pose proof (StronglySorted_lookup _ _ _ _ _ _ Hs Hb Hc Hjl) as Hbc.
      pose proof (klcp_between a b c bk Hab Hbc).
      destruct (decide (klcp a bk ≤ klcp b bk)); [by eapply weak_mono|].
      apply (weak_mono m s (klcp c bk)); [lia|done].
  Qed.

  (** ** [split_pairs] *)
  Lemma split_pairs_app ks s z o : split_pairs ks s = Ok (z, o) → z ++ o = ks.
  Proof.
    unfold split_pairs. destruct (head ks) as [k0|] eqn:Hh, (last ks) as [k1|] eqn:Hl.
    - destruct (choose_zero k1 s) as [zl| |]; cbn [mbind res_bind]; try done.
      destruct zl.
      { intros [= <- <-]. apply app_nil_r. }
      destruct (choose_zero k0 s) as [zf| |]; cbn [mbind res_bind]; try done.
      destruct (negb zf).
      { by intros [= <- <-]. }
      intros [= <- <-]. apply take_drop.
    - destruct ks; [done|]. by apply last_None in Hl.
    - destruct ks; [by intros [= <- <-]|done].
    - destruct ks; [by intros [= <- <-]|done].
  Qed.
  Lemma split_pairs_total ks s : s < 8 * n → ∃ z o, split_pairs ks s = Ok (z, o).
  Proof.
    intros Hs. unfold split_pairs. destruct (head ks) as [k0|], (last ks) as [k1|]; eauto.
    rewrite !choose_zero_ok by done. cbn [mbind res_bind].
    destruct (negb (bit k1 s)); eauto. destruct (negb (negb (bit k0 s))); eauto.
  Qed.

  (** Sorted keys agreeing below [s] have non-decreasing bit [s]. *)
  Lemma sorted_bit_mono a b s : arr_le a b → s ≤ klcp a b → bit a s = true → bit b s = true.
  Proof.
    intros [Hlt| ->]%arr_le_iff Hs Ha; [|done].
    apply klt_iff in Hlt as (H1 & H2 & H3).
    destruct (decide (s = klcp a b)) as [->|]; [congruence|].
    rewrite <- (klcp_agree a b) by lia. done.
  Qed.

  Lemma filter_all {A} (P : A → Prop) `{∀ x, Decision (P x)} (l : list A) :
    (∀ x, x ∈ l → P x) → filter P l = l.
  Proof.
    induction l as [|x l IH]; intros Hl; [done|].
    rewrite filter_cons_True by (apply Hl; by left). f_equal. apply IH. intros; apply Hl; by right.
  Qed.
  Lemma filter_none {A} (P : A → Prop) `{∀ x, Decision (P x)} (l : list A) :
    (∀ x, x ∈ l → ¬ P x) → filter P l = [].
  Proof.
    induction l as [|x l IH]; intros Hl; [done|].
    rewrite filter_cons_False by (apply Hl; by left). apply IH. intros; apply Hl; by right.
  Qed.

  (** A key is put on its side if no smaller (greater) key has the other bit. *)
  Lemma split_pairs_zero ks s z o k : s < 8 * n → ksorted ks → split_pairs ks s = Ok (z, o) → k ∈ ks →
    bit k s = false → (∀ y, y ∈ ks → klt y k → bit y s = false) → k ∈ z.
  Proof.
    intros Hs Hso. unfold split_pairs.
    destruct (head ks) as [k0|] eqn:Hh; [|by destruct ks; [intros _ ?%elem_of_nil|]].
    destruct (last ks) as [k1|] eqn:Hl; [|by apply last_None in Hl as ->].
    rewrite !choose_zero_ok by done. cbn [mbind res_bind].
    destruct (bit k1 s); simpl; [|by intros [= <- <-]].
    assert (k0 ∈ ks) as Hk0 by (destruct ks; [done|]; injection Hh as ->; by left).
    destruct (bit k0 s) eqn:Hb0; simpl.
    { intros _ Hk Hb Hy. exfalso.
      pose proof (ksorted_head_le ks k0 k Hso Hh Hk) as [Hlt| ->]%arr_le_iff; [|congruence].
      rewrite (Hy k0 Hk0 Hlt) in Hb0. done. }
    intros [= <- <-] Hk Hb Hy.
    set (p := λ v, match choose_zero v s with Ok b => b | _ => false end).
    assert (∀ k, p k = negb (bit k s)) as Hp.
    { intros k'. unfold p. by rewrite choose_zero_ok. }
    destruct (partition_point_around p ks) as [_ Hpp].
    apply elem_of_list_lookup in Hk as [j Hj].
    pose proof (lookup_lt_Some _ _ _ Hj) as Hjl.
    destruct (decide (j < partition_point p ks)) as [Hlt|Hge].
    { apply elem_of_list_lookup. exists j. by rewrite lookup_take. }
    exfalso. destruct Hpp as [Hpp|(y & Hyl & Hpy)]; [lia|].
    rewrite Hp in Hpy. apply negb_false_iff in Hpy.
    destruct (decide (j = partition_point p ks)) as [->|Hne].
    { rewrite Hj in Hyl. injection Hyl as ->. congruence. }
    assert (partition_point p ks < j) as Hlt by lia.
    pose proof (StronglySorted_lookup arr_le ks _ j y k Hso Hyl Hj Hlt) as [Hyk| ->]%arr_le_iff; [|congruence].
    rewrite (Hy y) in Hpy; [done|by eapply elem_of_list_lookup_2|done].
  Qed.
  Lemma split_pairs_one ks s z o k : s < 8 * n → ksorted ks → split_pairs ks s = Ok (z, o) → k ∈ ks →
    bit k s = true → (∀ y, y ∈ ks → klt k y → bit y s = true) → k ∈ o.
  Proof.
    intros Hs Hso. unfold split_pairs.
    destruct (head ks) as [k0|] eqn:Hh; [|by destruct ks; [intros _ ?%elem_of_nil|]].
    destruct (last ks) as [k1|] eqn:Hl; [|by apply last_None in Hl as ->].
    rewrite !choose_zero_ok by done. cbn [mbind res_bind].
    assert (k1 ∈ ks) as Hk1.
    { apply last_Some in Hl as [l' ->]. apply elem_of_app. right. by left. }
    destruct (bit k1 s) eqn:Hb1; simpl.
    2:{ intros _ Hk Hb Hy. exfalso.
      pose proof (ksorted_last_le ks k1 k Hso Hl Hk) as [Hlt| ->]%arr_le_iff; [|congruence].
      rewrite (Hy k1 Hk1 Hlt) in Hb1. done. }
    destruct (bit k0 s) eqn:Hb0; simpl; [by intros [= <- <-]|].
    intros [= <- <-] Hk Hb Hy.
    set (p := λ v, match choose_zero v s with Ok b => b | _ => false end).
    assert (∀ k, p k = negb (bit k s)) as Hp.
    { intros k'. unfold p. by rewrite choose_zero_ok. }
    destruct (partition_point_around p ks) as [Hpp _].
    apply elem_of_list_lookup in Hk as [j Hj].
    destruct (decide (partition_point p ks ≤ j)) as [Hle|Hge].
    { apply elem_of_list_lookup. exists (j - partition_point p ks). rewrite lookup_drop.
      by replace (partition_point p ks + (j - partition_point p ks)) with j by lia. }
    exfalso. destruct Hpp as [Hpp|(y & Hyl & Hpy)]; [lia|].
    rewrite Hp in Hpy. apply negb_true_iff in Hpy.
    destruct (decide (j = partition_point p ks - 1)) as [->|Hne].
    { rewrite Hj in Hyl. injection Hyl as ->. congruence. }
    assert (j < partition_point p ks - 1) as Hlt by lia.
    pose proof (StronglySorted_lookup arr_le ks j _ k y Hso Hj Hyl Hlt) as [Hyk| ->]%arr_le_iff; [|congruence].
    rewrite (Hy y) in Hpy; [done|by eapply elem_of_list_lookup_2|done].
  Qed.
  Lemma split_pairs_spec ks s : s < 8 * n → ksorted ks →
    (∀ a b, a ∈ ks → b ∈ ks → s ≤ klcp a b) →
    split_pairs ks s = Ok (filter (λ k, bit k s = false) ks, filter (λ k, bit k s = true) ks).
  Proof.
    intros Hs Hsorted Hag. unfold split_pairs.
    destruct (decide (ks = [])) as [->|Hne]; [done|].
    destruct (head ks) as [k0|] eqn:Hh; [|by destruct ks].
    destruct (last ks) as [k1|] eqn:Hl; [|by apply last_None in Hl].
    assert (k0 ∈ ks) as Hk0 by (destruct ks; [done|]; injection Hh as ->; by left).
    assert (k1 ∈ ks) as Hk1.
    { apply last_Some in Hl as [l' ->]. apply elem_of_app. right. by left. }
    rewrite !choose_zero_ok by done. cbn [mbind res_bind].
    destruct (bit k1 s) eqn:Hb1; simpl.
    2:{ do 2 f_equal.
        - symmetry. apply filter_all. intros k Hk.
          destruct (bit k s) eqn:Hb; [|done]. exfalso.
          rewrite (sorted_bit_mono k k1 s) in Hb1; [done| |auto|done].
          by eapply ksorted_last_le.
        - symmetry. apply filter_none. intros k Hk Hb.
          rewrite (sorted_bit_mono k k1 s) in Hb1; [done| |auto|done].
          by eapply ksorted_last_le. }
    destruct (bit k0 s) eqn:Hb0; simpl.
    { do 2 f_equal.
      - symmetry. apply filter_none. intros k Hk Hb.
        rewrite (sorted_bit_mono k0 k s) in Hb; [done| |auto|done].
        by eapply ksorted_head_le.
      - symmetry. apply filter_all. intros k Hk.
        apply (sorted_bit_mono k0 k s); [|auto|done].
        by eapply ksorted_head_le. }
    set (p := λ v, match choose_zero v s with Ok b => b | _ => false end).
    assert (∀ k, p k = negb (bit k s)) as Hp.
    { intros k. unfold p. by rewrite choose_zero_ok. }
    destruct (partition_point_spec p ks) as [H1 H2].
    { intros i j x y Hij Hx Hy Hpy. rewrite Hp in *.
      apply negb_true_iff in Hpy. apply negb_true_iff.
      destruct (bit x s) eqn:Hbx; [|done].
      rewrite (sorted_bit_mono x y s) in Hpy; [done| | |done].
      - by eapply StronglySorted_lookup.
      - apply Hag; by eapply elem_of_list_lookup_2. }
    pose proof (partition_point_le p ks) as Hle.
    set (pp := partition_point p ks) in *.
    assert (∀ k, k ∈ take pp ks → bit k s = false) as Ht.
    { intros k [j Hj]%elem_of_list_lookup.
      assert (j < pp) as Hjp.
      { apply lookup_lt_Some in Hj. rewrite take_length in Hj. lia. }
      rewrite lookup_take in Hj by done. specialize (H1 j k Hjp Hj).
      rewrite Hp in H1. by apply negb_true_iff. }
    assert (∀ k, k ∈ drop pp ks → bit k s = true) as Hd.
    { intros k [j Hj]%elem_of_list_lookup. rewrite lookup_drop in Hj.
      specialize (H2 (pp + j) k ltac:(lia) Hj).
      rewrite Hp in H2. by apply negb_false_iff. }
    rewrite <- (take_drop pp ks) at 3 4. rewrite !filter_app.
    do 2 f_equal.
    - rewrite filter_all by done. rewrite filter_none, app_nil_r; [done|].
      intros k Hk. rewrite Hd by done. done.
    - rewrite filter_none.
      + rewrite filter_all; [done|auto].
      + intros k Hk. rewrite Ht by done. done.
  Qed.
End KeyLists.
