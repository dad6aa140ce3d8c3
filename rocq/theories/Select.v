(** * Which keys a read of several keys finds
    [get] of any list of keys, with no condition on the list: [found] computes
    the keys it finds from the keys in the tree and the keys asked for, [reach]
    the depth it needs; neither mentions nodes, locations or hashes. *)
From Coq Require Import Strings.Byte NArith.
From stdpp Require Import prelude countable gmap sorting strings.
From Verif Require Import Model Bits Spec Util Trie Store Logic Build Evol Route Reads Insert Update Safe Get
  Hist Claims RefCount RcInsert RcRemove Total Live Regrow Weak Depth Shape Need Formula.

Local Open Scope nat_scope.

Section Spec.
  Context {n : nat}.
  Implicit Types (P ks : list (arr n)) (a k : arr n).

  Definition half (b : bool) (i : nat) P := filter (λ k : arr n, bit k i = b) P.
  (** The keys taken to be below a branch at bit [s] that has the key [a] below
      it: those that agree with [a] before [s], and those that leave [a] in a
      byte [q / 8] such that [s] is not behind bit [m mod 8] of that byte,
      where [m] is the first bit at which any of the keys leaves [a]. *)
  Definition least a ks : nat := foldr (λ k m, min (klcp k a) m) (8 * n) ks.
  Definition taken (s : nat) a ks :=
    filter (λ k, s ≤ klcp k a ∨ s ≤ 8 * (klcp k a / 8) + least a ks mod 8) ks.
  (** Their division: at the place where a binary search for the first one bit
      ends ([partition_point] of the standard library). *)
  Definition cut (s : nat) ks : list (arr n) * list (arr n) :=
    match head ks, last ks with
    | Some f, Some l =>
        if negb (bit l s) then (ks, [])
        else if bit f s then ([], ks)
        else let c := partition_point (λ k, negb (bit k s)) ks in (take c ks, drop c ks)
    | _, _ => ([], [])
    end.
  (** [P]: the keys of the tree that agree before the bit [i], [d]: the number of
      bits from [i] on, [ks]: the keys asked for that are brought here, in
      order. *)
  Fixpoint found (d i : nat) P ks : list (arr n) :=
    match d with
    | 0 => P
    | S d' =>
        match half false i P, half true i P with
        | [], P1 => found d' (S i) P1 ks
        | P0, [] => found d' (S i) P0 ks
        | (a :: _) as P0, P1 =>
            let zo := cut i (taken i a ks) in
            match zo.1 with [] => [] | z => found d' (S i) P0 z end ++
            match zo.2 with [] => [] | o => found d' (S i) P1 o end
        end
    end.
  Fixpoint reach (d i : nat) P ks : nat :=
    match d with
    | 0 => 0
    | S d' =>
        match half false i P, half true i P with
        | [], P1 => reach d' (S i) P1 ks
        | P0, [] => reach d' (S i) P0 ks
        | (a :: _) as P0, P1 =>
            let zo := cut i (taken i a ks) in
            max match zo.1 with [] => 0 | z => S (reach d' (S i) P0 z) end
                match zo.2 with [] => 0 | o => S (reach d' (S i) P1 o) end
        end
    end.
End Spec.

Section Select.
  Context {n : nat}.
  Implicit Types (P ks : list (arr n)) (a k bk : arr n) (t l r : trie n).

  Lemma search_ext {A} (f g : A → comparison) xs fuel left right : (∀ x, f x = g x) →
    binary_search_by f xs fuel left right = binary_search_by g xs fuel left right.
  Proof.
    intros Hfg. revert left right. induction fuel as [|fuel IH]; intros left right; [done|]. cbn [binary_search_by].
    destruct (left <? right); [|done]. destruct (xs !! _) as [x|]; [|done]. rewrite Hfg. destruct (g x); auto.
  Qed.
  Lemma cut_split s ks : s < 8 * n → cut s ks = node_split ks s.
  Proof.
    intros Hs. unfold cut, node_split, split_pairs.
    destruct (head ks) as [f|], (last ks) as [e|]; try done. rewrite !choose_zero_ok by done. cbn [mbind res_bind].
    destruct (bit e s); cbn [negb]; [|done]. destruct (bit f s); cbn [negb]; [done|].
    unfold partition_point. rewrite (search_ext _ (λ v, if match choose_zero v s with Ok b => b | _ => false end then Lt else Gt)); [done|].
    intros k. cbn beta. rewrite choose_zero_ok by done. done.
  Qed.

  Lemma least_le a ks k : k ∈ ks → least a ks ≤ klcp k a.
  Proof. induction 1 as [x ks|x y ks _ IH]; cbn [least foldr]; [lia|]. unfold least in IH. lia. Qed.
  Lemma least_spec a ks : least a ks = 8 * n ∨ ∃ k, k ∈ ks ∧ klcp k a = least a ks.
  Proof.
    induction ks as [|x ks IH]; [by left|]. cbn [least foldr]. fold (least a ks).
    destruct (Nat.min_spec (klcp x a) (least a ks)) as [[_ ->]|[_ ->]].
    - right. exists x. split; [by left|done].
    - destruct IH as [E|(k & Hk & E)]; [by left|]. right. exists k. split; [by right|done].
  Qed.

  (** Any key below the branch serves as the branch key. *)
  Lemma taken_key s a b ks : s < 8 * n → s ≤ klcp a b → taken s a ks = taken s b ks.
  Proof.
    intros Hs Hab.
    assert (∀ k, klcp k a < s → klcp k b = klcp k a) as H1.
    { intros k Hk. apply klcp_ultra_lt. lia. }
    assert (∀ k, s ≤ klcp k a → s ≤ klcp k b) as H2.
    { intros k Hk. pose proof (klcp_ultra k a b). lia. }
    destruct (decide (Forall (λ k, s ≤ klcp k a) ks)) as [Ha|Ha].
    { rewrite Forall_forall in Ha. unfold taken. rewrite !filter_all by naive_solver. done. }
    assert (least b ks = least a ks) as Hm.
    { apply not_Forall_Exists, Exists_exists in Ha as (k & Hk & Hka); [|apply _].
      assert (klcp k a < s) as Hlt by (change (¬ s ≤ klcp k a) in Hka; lia).
      pose proof (least_le a ks k Hk) as La. pose proof (least_le b ks k Hk) as Lb. rewrite (H1 k Hlt) in Lb.
      destruct (least_spec a ks) as [|(x & Hx & Ex)]; [lia|].
      destruct (least_spec b ks) as [|(y & Hy & Ey)]; [lia|].
      pose proof (least_le a ks y Hy). pose proof (least_le b ks x Hx).
      assert (klcp x b = klcp x a) by (apply H1; lia). destruct (decide (s ≤ klcp y a)) as [Hya|]; [pose proof (H2 y Hya); lia|].
      rewrite (H1 y) in Ey by lia. lia. }
    unfold taken. rewrite Hm. apply list_filter_iff. intros k. destruct (decide (s ≤ klcp k a)) as [Hk|Hk].
    - pose proof (H2 k Hk). naive_solver.
    - rewrite (H1 k) by lia. done.
  Qed.

  Lemma taken_desc ks s bk : 0 < n → ksorted ks → ks ≠ [] → s < 8 * n → taken s bk ks = node_desc ks s bk.
  Proof.
    intros Hn Hso Hne Hs. destruct (node_desc_spec ks s bk Hn Hso Hne Hs) as (m & _ & _ & _ & -> & Hm & Hle).
    destruct Hm as [Hall|(k0 & Hk0 & Hm)].
    - unfold taken. rewrite !filter_all; [done| |].
      + intros k Hk. rewrite (Hall k Hk), klcp_refl. unfold weak. apply Nat.leb_le. lia.
      + intros k Hk. left. rewrite (Hall k Hk), klcp_refl. lia.
    - unfold taken. assert (least bk ks = m) as ->.
      { pose proof (least_le bk ks k0 Hk0). destruct (least_spec bk ks) as [E|(k & Hk & E)].
        - assert (klcp k0 bk ≤ 8 * n) by apply klcp_le. lia.
        - pose proof (Hle k Hk). lia. }
      apply list_filter_iff. intros k. unfold weak. rewrite Nat.leb_le. lia.
  Qed.

  (** All keys of [t] agree before the bit [i]. *)
  Lemma half_all b i P : (∀ k, k ∈ P → bit k i = b) → half b i P = P.
  Proof. intros Ha. by apply filter_all. Qed.
  Lemma half_none b i P : (∀ k, k ∈ P → bit k i = negb b) → half b i P = [].
  Proof. intros Ha. apply filter_none. intros k Hk. rewrite (Ha k Hk). by destruct b. Qed.
  Lemma half_perm b i P P' : P ≡ₚ P' → half b i P ≡ₚ half b i P'.
  Proof. intros Hp. unfold half. by rewrite Hp. Qed.

  (** What is at the bit [i] of the keys of a tree. *)
  Inductive level (i : nat) t P : Prop :=
  | level_same b : from (S i) t → half b i P ≡ₚ tkeys t → half (negb b) i P = [] → level i t P
  | level_node l r : t = TNode l r → i = tsplit l r → from (S i) l → from (S i) r →
      half false i P ≡ₚ tkeys l → half true i P ≡ₚ tkeys r → level i t P.
  Lemma level_of i t P : twf t → P ≡ₚ tkeys t → i < 8 * n → from i t → level i t P.
  Proof.
    intros Hwf Hp Hi Hf.
    assert (from (S i) t → level i t P) as Hsame.
    { intros Hs. pose proof (from_bits i t _ Hs eq_refl) as Hb.
      assert (∀ a, a ∈ P → bit a i = bit (tmin t) i) as HP by (intros a; rewrite Hp; apply Hb).
      apply (level_same i t P (bit (tmin t) i)); [done| |].
      - by rewrite half_all.
      - apply half_none. intros a Ha. by rewrite negb_involutive, HP. }
    destruct t as [k e|l r].
    - apply Hsame. intros a b Ha Hb. cbn in Ha, Hb. apply elem_of_list_singleton in Ha as ->, Hb as ->.
      rewrite klcp_refl. lia.
    - pose proof (from_split i l r Hf) as Hs. destruct (decide (i = tsplit l r)) as [->|Hne].
      2:{ apply Hsame, from_more; [done|lia]. }
      destruct (from_sides _ l r Hwf eq_refl) as [Hfl Hfr]. pose proof Hwf as (Hwl & Hwr & Hlt & _).
      destruct (tsplit_bits l r Hlt) as [Hbl Hbr].
      pose proof (from_bits _ l _ Hfl Hbl) as Hl. pose proof (from_bits _ r _ Hfr Hbr) as Hr.
      eapply level_node; try done.
      + rewrite (half_perm _ _ P _ Hp), tkeys_node. unfold half. rewrite filter_app. fold (half false (tsplit l r) (tkeys l)).
        rewrite half_all by done. rewrite (filter_none _ (tkeys r)); [by rewrite app_nil_r|].
        intros k Hk. rewrite (Hr k Hk). done.
      + rewrite (half_perm _ _ P _ Hp), tkeys_node. unfold half. rewrite filter_app. fold (half true (tsplit l r) (tkeys r)).
        rewrite half_all by done. rewrite (filter_none _ (tkeys l)); [done|].
        intros k Hk. rewrite (Hl k Hk). done.
  Qed.

  Lemma found_trie d : 0 < n → ∀ i t P ks, twf t → P ≡ₚ tkeys t → i + d = 8 * n → from i t → ksorted ks → ks ≠ [] →
    found d i P ks ≡ₚ (wget t ks).*1 ∧ reach d i P ks = wdep t ks.
  Proof.
    intros Hn. induction d as [|d IH]; intros i t P ks Hwf Hp Hd Hf Hso Hne.
    - destruct t as [k e|l r].
      + split; [exact Hp|done].
      + pose proof (from_split i l r Hf). pose proof Hwf as (_&_&Hlt&_). pose proof (tsplit_lt l r Hlt). lia.
    - destruct (level_of i t P Hwf Hp ltac:(lia) Hf) as [b Hs Hb He|l r -> -> Hfl Hfr Hl Hr].
      + cbn [found reach]. pose proof (IH (S i) t (half b i P) ks Hwf Hb ltac:(lia) Hs Hso Hne) as IHt.
        assert (half b i P ≠ []) as Hnb.
        { intros E. rewrite E in Hb. pose proof (tmin_in t) as Hm. rewrite <- Hb in Hm. by apply elem_of_nil in Hm. }
        destruct b; cbn [negb] in He; rewrite He in *.
        * by destruct (half true i P).
        * destruct (half false i P) as [|x P']; [done|]. done.
      + pose proof Hwf as (Hwl & Hwr & Hlt & _). pose proof (tsplit_lt l r Hlt) as Hs8.
        cbn [found reach wget wdep]. destruct (half false (tsplit l r) P) as [|a P0] eqn:E0.
        { pose proof (tmin_in l) as Hm. rewrite <- Hl in Hm. by apply elem_of_nil in Hm. }
        destruct (half true (tsplit l r) P) as [|a1 P1] eqn:E1.
        { pose proof (tmin_in r) as Hm. rewrite <- Hr in Hm. by apply elem_of_nil in Hm. }
        assert (a ∈ tkeys l) as Ha by (rewrite <- Hl; by left).
        rewrite (taken_key _ a (tmin l)) by (done || (destruct (twf_left l r a Hwf Ha); lia)).
        rewrite taken_desc, cut_split by done.
        pose proof (node_desc_sorted ks (tsplit l r) (tmin l) Hn Hs8 Hso) as HsD.
        destruct (node_desc ks (tsplit l r) (tmin l)) as [|dk D] eqn:ED.
        { cbn. done. }
        destruct (node_split_app (dk :: D) (tsplit l r) Hs8) as [_ Happ].
        destruct (node_split (dk :: D) (tsplit l r)) as [zs os] eqn:Ezo. cbn [fst snd] in *.
        assert (ksorted zs ∧ ksorted os) as [Hz Ho].
        { rewrite <- Happ in HsD. split; [apply (StronglySorted_app_inv _ _ _ HsD)|apply (StronglySorted_app_inv _ _ _ HsD)]. }
        rewrite fmap_app. split.
        * apply Permutation_app.
          -- destruct zs as [|z zs]; [done|]. apply (IH _ l _ (z :: zs) Hwl Hl); [lia|done|done|done].
          -- destruct os as [|o os]; [done|]. apply (IH _ r _ (o :: os) Hwr Hr); [lia|done|done|done].
        * f_equal.
          -- destruct zs as [|z zs]; [done|]. f_equal. apply (IH _ l _ (z :: zs) Hwl Hl); [lia|done|done|done].
          -- destruct os as [|o os]; [done|]. f_equal. apply (IH _ r _ (o :: os) Hwr Hr); [lia|done|done|done].
  Qed.
End Select.

Section Answers.
  Context {n : nat} (Hn : 0 < n) (B : backend n) {HB : BackendOk B} (H : list bytes → arr n).
  Context {V : Type} (enc : V → res bytes) (dec : bytes → res V) (Hcodec : codec_ok enc dec).
  Implicit Types (st : b_st B) (lg : list (list bytes)) (k : arr n) (ks P : list (arr n)) (M : gmap (arr n) V) (t : trie n).

  Notation wp := (wp B H (λ _, True) (λ _, True)).

  (** The map returned, whatever the keys. *)
  Lemma get_wp_found t ks D st : ks ≠ [] → stored H (b_vis B st) t → twf t →
    wp (get dec D (troot H t) ks)
      (λ lm _, (∀ k, k ∉ ks → lm !! k = None) ∧
         (∀ k, k ∈ ks → k ∉ (wget t (sort_keys ks)).*1 → lm !! k = Some None) ∧
         (∀ k e v, k ∈ ks → (k, e) ∈ wget t (sort_keys ks) → dec e = Ok v → lm !! k = Some (Some v)) ∧
         wdep t (sort_keys ks) ≤ D)
      (λ er _, (er = "Depth of merkle tree exceeded" ∧ D < wdep t (sort_keys ks)) ∨ ∃ k e, (k, e) ∈ tleaves t ∧ dec e = Err er) st.
  Proof using Hn Hcodec HB.
    intros Hne Hst Hw. unfold get.
    assert (∀ A (a b : A), match ks with [] => a | _ => b end = b) as Hm by (by destruct ks).
    rewrite Hm. clear Hm.
    pose proof (stored_root _ _ _ Hst) as Hr. apply has_lookup in Hr as [rf Hr].
    cbn [get_node mbind prog_bind pbind Logic.wp]. rewrite Hr.
    set (keys := sort_keys ks).
    assert (keys ≠ []) as Hne'.
    { intros Hnil. apply Hne. apply length_zero_iff_nil. rewrite <- sort_keys_length.
      unfold keys in Hnil. by rewrite Hnil. }
    pose proof (sort_keys_sorted ks) as Hso. fold keys in Hso.
    eapply wp_mono; [| |eapply (get_loop_wp Hn H B dec (dec_no_panic _ _ Hcodec) D keys _ _ _ [t])].
    - intros lm s' (-> & -> & Hdecs & Hwd). unfold gets in *. cbn [zip_with ckeys mjoin list_join] in *.
      rewrite app_nil_r in *. set (lm0 := generate_leaf_map ks).
      assert (∀ k, k ∈ keys ↔ k ∈ ks) as Hk by (intros k; apply elem_of_sort_keys).
      assert (∀ k, k ∈ keys → is_Some (lm0 !! k)) as Hlm0.
      { intros k Hin%Hk. unfold lm0. rewrite leaf_map_lookup, decide_True by done. eauto. }
      split_and!; [| | |by apply (Hwd _ _ ltac:(by left))].
      + intros k Hni. rewrite fold_ins_dom by done. unfold lm0. by rewrite leaf_map_lookup, decide_False.
      + intros k Hin Hni. destruct (foldl (ins dec keys) lm0 (wget t keys) !! k) as [[v|]|] eqn:E; [|done|].
        * exfalso. apply fold_ins_sound in E as [Hl|(e & Hin' & He)].
          { unfold lm0 in Hl. rewrite leaf_map_lookup in Hl. by destruct (decide (k ∈ ks)). }
          apply Hni, elem_of_list_fmap. by exists (k, e).
        * exfalso. apply fold_ins_dom in E; [|done]. apply Hk, Hlm0 in Hin as [? ?]. congruence.
      + intros k e v Hin Hg He. eapply fold_ins_complete; [by apply Hk|done| |by left].
        intros e' He'%wget_elem. apply wget_elem in Hg. apply tmap_lookup in He', Hg; [|done|done]. congruence.
    - intros er s' (-> & [(-> & c & t' & Hin & Hd)|(p & Hin & He)]).
      + left. split; [done|]. apply elem_of_list_singleton in Hin as [= -> ->]. done.
      + right. unfold gets in Hin. cbn [zip_with ckeys mjoin list_join] in Hin. rewrite app_nil_r in Hin.
        destruct p as [k e]. exists k, e. split; [by eapply wget_elem|done].
    - done.
    - constructor; [|done]. unfold gcellok. cbn. split_and!; try done. by apply twf_tpwf.
    - unfold traverse_fuel, measure. cbn. lia.
    - intros c ->%elem_of_list_singleton. simpl. lia.
  Qed.

  (** [P] lists the keys of [M]; [ks'] is [ks] in order. *)
  Theorem get_found st lg (r : arr n) M P ks ks' : live B H enc dec st lg r M → no_collision H lg →
    (NoDup P ∧ ∀ k, k ∈ P ↔ is_Some (M !! k)) → ks ≠ [] → StronglySorted arr_le ks' → ks' ≡ₚ ks → ∀ D,
    if reach (8 * n) 0 P ks' <=? D then
      ∃ lm, out B H (get dec D r ks) st = ROk lm ∧ (∀ k, k ∉ ks → lm !! k = None) ∧
        ∀ k, k ∈ ks → lm !! k = Some (if decide (k ∈ found (8 * n) 0 P ks') then M !! k else None)
    else out B H (get dec D r ks) st = RErr "Depth of merkle tree exceeded".
  Proof using Hn Hcodec HB.
    intros Hl Hc [Hnd HP] Hne Hso Hp D.
    destruct (live_handle Hn B H enc dec Hcodec st lg r M Hl Hc) as (t & Hr & Hwf & Hst & _ & Hen). cbn [fst snd] in *. subst r.
    assert (ks' = sort_keys ks) as ->.
    { eapply (StronglySorted_unique arr_le); [done|apply sort_keys_sorted|]. by rewrite sort_keys_perm. }
    assert (sort_keys ks ≠ []) as Hne'.
    { intros E. apply Hne. apply Permutation_nil. by rewrite <- E, Hp. }
    assert (P ≡ₚ tkeys t) as HPt.
    { apply NoDup_Permutation; [done|by apply twf_nodup|]. intros k. rewrite HP, <- tmap_has.
      apply (encs_has enc M (tmap t) k Hen). }
    destruct (found_trie (8 * n) Hn 0 t P (sort_keys ks) Hwf HPt ltac:(lia) ltac:(intros a b _ _; lia) Hso Hne') as [Hf ->].
    pose proof (get_wp_found t ks D st Hne Hst Hwf) as Hw. apply wp_run in Hw; [|by intros].
    destruct (out B H (get dec D (troot H t) ks) st) as [lm|er| |]; try done.
    - destruct Hw as (Hno & Hnf & Hfo & Hd). destruct (Nat.leb_spec (wdep t (sort_keys ks)) D); [|lia].
      exists lm. split_and!; [done|done|]. intros k Hk. destruct (decide (k ∈ found (8 * n) 0 P (sort_keys ks))) as [Hin|Hni].
      + rewrite Hf in Hin. apply elem_of_list_fmap in Hin as ([k' e] & -> & Hin). cbn [fst] in *.
        destruct (tleaves_decodes enc dec Hcodec t M k' e Hwf Hen (wget_elem _ _ _ Hin)) as (v & Hv & HM).
        rewrite HM. by apply (Hfo k' e v).
      + apply Hnf; [done|]. by rewrite <- Hf.
    - destruct Hw as [(-> & Hlt)|(k & e & Hin & Hde)].
      + destruct (Nat.leb_spec (wdep t (sort_keys ks)) D); [lia|done].
      + destruct (tleaves_decodes enc dec Hcodec t M k e) as (v' & Hv' & HM); try done. congruence.
  Qed.
End Answers.

(** Nothing else decides the answer. *)
Section Same.
  Context {n : nat} (Hn : 0 < n) {V : Type}.

  Lemma keys_list (M : gmap (arr n) V) : ∃ P, NoDup P ∧ ∀ k, k ∈ P ↔ is_Some (M !! k).
  Proof using.
    exists (elements (dom M)). split; [apply NoDup_elements|]. intros k. by rewrite elem_of_elements, elem_of_dom.
  Qed.
  Theorem get_same
    (B1 : backend n) (HB1 : BackendOk B1) (H1 : list bytes → arr n) (enc1 : V → res bytes) (dec1 : bytes → res V)
    (B2 : backend n) (HB2 : BackendOk B2) (H2 : list bytes → arr n) (enc2 : V → res bytes) (dec2 : bytes → res V)
    st1 lg1 r1 st2 lg2 r2 M ks1 ks2 D :
    codec_ok enc1 dec1 → codec_ok enc2 dec2 →
    live B1 H1 enc1 dec1 st1 lg1 r1 M → no_collision H1 lg1 → live B2 H2 enc2 dec2 st2 lg2 r2 M → no_collision H2 lg2 →
    ks1 ≡ₚ ks2 → out B1 H1 (get dec1 D r1 ks1) st1 = out B2 H2 (get dec2 D r2 ks2) st2.
  Proof using Hn.
    intros Hc1 Hc2 L1 N1 L2 N2 Hp. destruct (keys_list M) as (P & HP).
    destruct (decide (ks1 = [])) as [->|Hne].
    { apply Permutation_nil_l in Hp as <-. done. }
    assert (ks2 ≠ []) as Hne2.
    { intros ->. by apply Permutation_nil_r in Hp. }
    pose proof (get_found Hn B1 H1 enc1 dec1 Hc1 st1 lg1 r1 M P ks1 (sort_keys ks1) L1 N1 HP Hne (sort_keys_sorted _) (sort_keys_perm _) D) as G1.
    pose proof (get_found Hn B2 H2 enc2 dec2 Hc2 st2 lg2 r2 M P ks2 (sort_keys ks1) L2 N2 HP Hne2 (sort_keys_sorted _)
      ltac:(by rewrite sort_keys_perm) D) as G2.
    destruct (_ <=? D).
    - destruct G1 as (lm1 & -> & Ha1 & Hb1), G2 as (lm2 & -> & Ha2 & Hb2). f_equal. apply map_eq. intros k.
      destruct (decide (k ∈ ks1)) as [Hk|Hk].
      + rewrite Hb1 by done. rewrite Hb2 by (by rewrite <- Hp). done.
      + rewrite Ha1 by done. rewrite Ha2 by (by rewrite <- Hp). done.
    - by rewrite G1, G2.
  Qed.
End Same.
