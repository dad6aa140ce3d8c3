(** * The helpers of src/utils/tree_utils.rs, in terms of single bits *)
From Coq Require Import Strings.Byte NArith.
From stdpp Require Import prelude countable gmap sorting strings.
From Verif Require Import Model Bits Util.

Local Open Scope nat_scope.

(** Bit [i] of a key, most significant first. *)
Definition key_bit {n} (k : arr n) (i : nat) : bool :=
  match (k : bytes) !! (i / 8) with
  | Some v => N.testbit (Byte.to_N v) (N.of_nat (7 - i mod 8))
  | None => false
  end.
(** The first [m] bits are the same. *)
Definition agree {n} (m : nat) (a b : arr n) : Prop := ∀ i, i < m → key_bit a i = key_bit b i.
(** The first difference is at bit [q]. *)
Definition leaves_at {n} (q : nat) (a b : arr n) : Prop := agree q a b ∧ key_bit a q ≠ key_bit b q.

Section Bitwise.
  Context {n : nat}.
  Implicit Types (a b k bk : arr n) (ks : list (arr n)).

  Lemma filter_sub {A} (P : A → Prop) `{∀ x, Decision (P x)} (l : list A) : filter P l `sublist_of` l.
  Proof using. induction l as [|x l IH]; [done|]. rewrite filter_cons. case_decide; by constructor. Qed.
  Lemma key_bit_bit k i : key_bit k i = bit k i.
  Proof using.
    unfold key_bit. destruct (decide (i < 8 * n)) as [Hi|Hi].
    - destruct (bit_byte k i Hi) as (v & -> & ->).
      pose proof (Nat.mod_upper_bound i 8 ltac:(lia)) as Hm. revert Hm. generalize (i mod 8). clear.
      intros j Hj. unfold byte_bits. do 8 (destruct j as [|j]; [done|]). lia.
    - rewrite lookup_ge_None_2.
      + unfold bit. rewrite nth_overflow; [done|]. rewrite kbits_length. lia.
      + rewrite (arr_length k). apply Nat.div_le_lower_bound; lia.
  Qed.
  Lemma agree_klcp m a b : m ≤ 8 * n → agree m a b ↔ m ≤ klcp a b.
  Proof using.
    intros Hm. unfold agree. setoid_rewrite key_bit_bit. split.
    - by apply klcp_ge.
    - intros Hl i Hi. apply klcp_agree. lia.
  Qed.
  Lemma leaves_at_klcp q a b : leaves_at q a b ↔ klcp a b = q ∧ q < 8 * n.
  Proof using.
    unfold leaves_at, agree. setoid_rewrite key_bit_bit. split.
    - intros [Ha Hd]. assert (q < 8 * n).
      { destruct (decide (q < 8 * n)); [done|]. exfalso. apply Hd. unfold bit.
        rewrite !nth_overflow; [done| |]; rewrite kbits_length; lia. }
      split; [by apply klcp_eq|done].
    - intros [<- Hq]. split; [intros i Hi; by apply klcp_agree|by apply klcp_differ].
  Qed.
  Lemma agree_all a b : agree (8 * n) a b ↔ a = b.
  Proof using.
    rewrite agree_klcp by lia. split; [|intros ->; rewrite klcp_refl; lia].
    intros Hl. destruct (decide (a = b)) as [|Hne]; [done|]. apply klcp_lt in Hne. lia.
  Qed.

  (** [choose_zero] *)
  Theorem choose_zero_bits k i :
    choose_zero k i = if i <? 8 * n then Ok (negb (key_bit k i)) else Err "Designated bit exceeds key length".
  Proof using.
    destruct (Nat.ltb_spec i (8 * n)).
    - rewrite choose_zero_ok by done. by rewrite key_bit_bit.
    - by apply choose_zero_err.
  Qed.
  (** [calc_min_split_index] *)
  Theorem calc_min_bits ks bk : 0 < n → ksorted ks → ks ≠ [] →
    ∃ m, calc_min_split_index ks bk = Ok m ∧ m < 8 * n ∧
      ((∀ k, k ∈ ks → k = bk) ∧ m = 8 * n - 1 ∨
       (∀ k, k ∈ ks → agree m k bk) ∧ ∃ k, k ∈ ks ∧ key_bit k m ≠ key_bit bk m).
  Proof using.
    intros Hn Hs Hne. destruct (calc_min_split_index_spec ks bk Hn Hs Hne) as (m & Hm & Hlt & Hc).
    exists m. split_and!; [done|done|]. destruct Hc as [Hc|[Hle (k & Hk & He)]]; [by left|right].
    split.
    - intros k' Hk'. apply agree_klcp; [lia|auto].
    - exists k. split; [done|]. rewrite !key_bit_bit. rewrite <- He. apply klcp_differ. lia.
  Qed.
  (** [split_pairs] *)
  Theorem split_pairs_bits ks s : s < 8 * n → ksorted ks →
    (∀ a b, a ∈ ks → b ∈ ks → agree s a b) →
    ∃ zs os, split_pairs ks s = Ok (zs, os) ∧ ks = zs ++ os ∧
      (∀ k, k ∈ zs → key_bit k s = false) ∧ (∀ k, k ∈ os → key_bit k s = true).
  Proof using.
    intros Hs Hsort Hag.
    assert (Hk : ∀ a b, a ∈ ks → b ∈ ks → s ≤ klcp a b) by (intros a b Ha Hb; apply agree_klcp; [lia|auto]).
    do 2 eexists. split; [by apply split_pairs_spec|]. split_and!.
    - clear Hag. induction ks as [|k ks IH]; [done|]. apply StronglySorted_inv in Hsort as [Hsort Hall].
      rewrite !filter_cons. destruct (bit k s) eqn:Hb.
      + rewrite decide_False by done. rewrite decide_True by done.
        assert (Hz : filter (λ k, bit k s = false) ks = []).
        { apply filter_none. intros k' Hk' Hf. rewrite Forall_forall in Hall.
          rewrite (sorted_bit_mono k k' s) in Hf; [done|by apply Hall| |done].
          apply Hk; [left|by right]. }
        rewrite Hz. cbn [app]. f_equal. specialize (IH Hsort). rewrite Hz in IH. apply IH.
        intros a b Ha Hb'. apply Hk; by right.
      + rewrite decide_True by done. rewrite decide_False by done. cbn [app]. f_equal. apply IH; [done|].
        intros a b Ha Hb'. apply Hk; by right.
    - intros k Hin. apply elem_of_list_filter in Hin as [Hb _]. by rewrite key_bit_bit.
    - intros k Hin. apply elem_of_list_filter in Hin as [Hb _]. by rewrite key_bit_bit.
  Qed.
  (** [check_descendants], called with the result of [calc_min_split_index]:
      keeps the keys below the branch, and also every key that leaves the branch
      key in the byte of the split index at a bit [q] such that no bit between
      [q] and the split index is at a position beyond [m mod 8]. *)
  Theorem check_descendants_bits ks bk s m : 0 < n → ksorted ks → ks ≠ [] → s < 8 * n →
    calc_min_split_index ks bk = Ok m →
    ∃ ds, check_descendants ks s bk m = Ok ds ∧ ds `sublist_of` ks ∧
      ∀ k, k ∈ ds ↔ k ∈ ks ∧ (agree s k bk ∨
        ∃ q, leaves_at q k bk ∧ q < s ∧ s ≤ 8 * (q / 8) + m mod 8).
  Proof using.
    intros Hn Hs Hne Hlt Hm.
    destruct (calc_min_split_index_spec ks bk Hn Hs Hne) as (m' & Hm' & Hmlt & Hc).
    rewrite Hm in Hm'. injection Hm' as <-.
    assert (Hle : ∀ k, k ∈ ks → m ≤ klcp k bk).
    { destruct Hc as [[He ->]|[Hle _]]; [|done]. intros k Hk. rewrite (He k Hk), klcp_refl. lia. }
    eexists. split; [apply check_descendants_weak; [done|lia|done]|]. split; [apply filter_sub|].
    intros k. rewrite elem_of_list_filter. unfold weak. rewrite Nat.leb_le, agree_klcp by lia.
    setoid_rewrite leaves_at_klcp. split.
    - intros [Hw Hk]. split; [done|]. destruct (decide (s ≤ klcp k bk)); [by left|right].
      exists (klcp k bk). split_and!; lia.
    - intros [Hk [Hw|(q & [Hq _] & Hqs & Hw)]]; (split; [|done]); [lia|]. subst q. lia.
  Qed.
  (** For a single key it is exact. *)
  Theorem check_descendants_one k bk s m : 0 < n → s < 8 * n → calc_min_split_index [k] bk = Ok m →
    ∃ ds, check_descendants [k] s bk m = Ok ds ∧ (ds = [k] ∧ agree s k bk ∨ ds = [] ∧ ¬ agree s k bk).
  Proof using.
    intros Hn Hlt Hm.
    assert (Hs : ksorted [k]) by (repeat constructor).
    destruct (calc_min_split_index_spec [k] bk Hn Hs ltac:(done)) as (m' & Hm' & Hmlt & Hc).
    rewrite Hm in Hm'. injection Hm' as <-.
    assert (Hle : ∀ k', k' ∈ [k] → m ≤ klcp k' bk).
    { destruct Hc as [[He ->]|[Hle _]]; [|done]. intros k' Hk. rewrite (He k' Hk), klcp_refl. lia. }
    eexists. split; [apply check_descendants_weak; [done|lia|done]|].
    rewrite agree_klcp by lia. rewrite filter_cons, filter_nil. unfold weak.
    destruct (decide (s ≤ klcp k bk)) as [Hd|Hd].
    - left. split; [|done]. rewrite decide_True; [done|]. apply Nat.leb_le. lia.
    - right. split; [|done]. rewrite decide_False; [done|]. rewrite Nat.leb_le.
      assert (klcp k bk = m) as Hkm.
      { destruct Hc as [[He _]|[_ (k' & Hk' & He)]].
        - rewrite (He k), klcp_refl in Hd by left. lia.
        - apply elem_of_list_singleton in Hk'. by subst. }
      rewrite Hkm in *. pose proof (Nat.div_mod_eq m 8). lia.
  Qed.
End Bitwise.
