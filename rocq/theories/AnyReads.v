(** * Any database, also a corrupt one: the ways to read one key, and duplicate keys *)
From Coq Require Import Strings.Byte NArith.
From stdpp Require Import prelude countable gmap sorting strings.
From Verif Require Import Model Spec Bits Util Trie Build Reads Insert Safe Get Hist.

Local Open Scope nat_scope.

Section AnyReads.
  Context {n : nat} (B : backend n) (H : list bytes → arr n) {V : Type} (dec : bytes → res V).
  Implicit Types (k l : arr n) (st : b_st B).

  Lemma check_one k si bk m xs : check_descendants [k] si bk m = Ok xs → xs = [] ∨ xs = [k].
  Proof.
    unfold check_descendants. destruct (descendant_range _ _ _ _ _ _ _ _) as [[a b]| |]; cbn; try done.
    unfold slice. destruct (_ && _); [|done]. intros [= <-]. cbn.
    destruct a as [|a]; cbn.
    - destruct b as [|b]; cbn; [by left|]. destruct b; by right.
    - left. destruct (b - S a); [done|]. by destruct a.
  Qed.
  Lemma split_pairs_one k si :
    split_pairs [k] si = (z ← choose_zero k si; Ok (if z : bool then ([k], []) else ([], [k]))).
  Proof. unfold split_pairs. cbn. destruct (choose_zero k si) as [[] | |]; cbn; done. Qed.
  Lemma search_one k k' : binary_search [k] k' = if decide (k' = k) then Some 0 else None.
  Proof.
    assert (ksorted [k]) as Hsk by repeat constructor.
    pose proof (binary_search_spec [k] k' Hsk) as Hbs. destruct (binary_search [k] k') as [i|].
    - destruct i as [|i]; [|done]. injection Hbs as ->. by rewrite decide_True.
    - rewrite decide_False; [done|]. intros ->. apply Hbs. by left.
  Qed.

  Lemma get_one_then_get D fuel f k d l nd lm s v : b_vis B s !! l = Some nd → D + 1 ≤ fuel + d →
    out B H (get_one_loop dec D f k d false l) s = ROk (Some v) →
    out B H (get_loop dec D fuel [k] lm [Cell l [k] nd d]) s = ROk (<[k := Some v]> lm).
  Proof.
    unfold out. revert fuel d l nd. induction f as [|f IH]; intros fuel d l nd Hl Hf; [done|]. cbn [get_one_loop].
    destruct (Nat.ltb_spec D d) as [|Hd]; [done|]. destruct fuel as [|fuel]; [lia|].
    cbn [get_loop cdepth cnode ckeys cloc]. destruct (Nat.ltb_spec D d); [lia|].
    cbn [get_node mbind prog_bind pbind run]. rewrite Hl.
    destruct (var nd) as [c zero one si bk|lk ld|e]; [| |done].
    - destruct (calc_min_split_index [k] bk) as [m| |]; cbn [lift mbind prog_bind pbind run]; [|done|done].
      destruct (check_descendants [k] si bk m) as [xs| |] eqn:Hc; cbn [lift mbind prog_bind pbind run]; [|done|done].
      destruct (check_one _ _ _ _ _ Hc) as [->| ->]; [done|]. rewrite split_pairs_one.
      destruct (choose_zero k si) as [z| |]; cbn [lift mbind res_bind prog_bind pbind run]; [|done|done].
      unfold push_cell_if_node. intros Hg.
      assert (∃ nd', b_vis B s !! (if z then zero else one) = Some nd') as [nd' Hl'].
      { destruct (b_vis B s !! (if z then zero else one)) as [nd'|] eqn:Hx; [by eexists|]. exfalso.
        destruct f as [|f]; [done|]. cbn [get_one_loop] in Hg. destruct (D <? d + 1); [done|].
        cbn [get_node mbind prog_bind pbind run] in Hg. rewrite Hx in Hg. done. }
      specialize (IH fuel (d + 1) _ nd' Hl' ltac:(lia) Hg).
      destruct z; cbn [fst snd get_node mbind prog_bind pbind run].
      + destruct (b_vis B s !! one); cbn [mret prog_ret get_node mbind prog_bind pbind run]; rewrite Hl';
          cbn [mret prog_ret get_node mbind prog_bind pbind run]; exact IH.
      + rewrite Hl'. cbn [mret prog_ret get_node mbind prog_bind pbind run].
        destruct (b_vis B s !! zero); cbn [mret prog_ret get_node mbind prog_bind pbind run]; exact IH.
    - destruct (decide (lk = k)) as [->|]; [|done]. destruct f as [|f]; [done|]. cbn [get_one_loop].
      destruct (D <? d + 1); [done|]. cbn [get_node mbind prog_bind pbind run].
      destruct (b_vis B s !! ld) as [nd'|]; [|done]. destruct (var nd') as [| |e]; [done|done|]. cbn [negb].
      destruct (dec e) as [v'| |]; cbn [lift mbind prog_bind pbind run]; [|done|done]. intros [= ->].
      rewrite search_one, decide_True by done. cbn. by destruct fuel.
  Qed.
  Lemma get_then_get_one D fuel f k d l nd lm lm' s : b_vis B s !! l = Some nd → D + 3 ≤ f + d →
    out B H (get_loop dec D fuel [k] lm [Cell l [k] nd d]) s = ROk lm' →
    ∃ o, out B H (get_one_loop dec (D + 1) f k d false l) s = ROk o ∧
      lm' = match o with Some v => <[k := Some v]> lm | None => lm end.
  Proof.
    unfold out. revert f d l nd. induction fuel as [|fuel IH]; intros f d l nd Hl Hf; [done|].
    cbn [get_loop cdepth cnode ckeys cloc]. destruct (Nat.ltb_spec D d) as [|Hd]; [done|].
    destruct f as [|f]; [lia|]. cbn [get_one_loop]. destruct (Nat.ltb_spec (D + 1) d); [lia|].
    cbn [get_node mbind prog_bind pbind run]. rewrite Hl.
    assert (∀ (fuel : nat) (s : b_st B), run B H (get_loop dec D fuel [k] lm []) s = (ROk lm, s, [])) as Hnil by (by intros []).
    destruct (var nd) as [c zero one si bk|lk ld|e]; [| |done].
    - destruct (calc_min_split_index [k] bk) as [m| |]; cbn [lift mbind prog_bind pbind run]; [|done|done].
      destruct (check_descendants [k] si bk m) as [xs| |] eqn:Hc; cbn [lift mbind prog_bind pbind run]; [|done|done].
      destruct (check_one _ _ _ _ _ Hc) as [->| ->].
      { rewrite Hnil. intros [= <-]. by exists None. }
      rewrite split_pairs_one.
      destruct (choose_zero k si) as [z| |]; cbn [lift mbind res_bind prog_bind pbind run]; [|done|done].
      unfold push_cell_if_node.
      assert (b_vis B s !! (if z then zero else one) = None →
        (run B H (get_one_loop dec (D + 1) f k (d + 1) false (if z then zero else one)) s).1.1 = ROk None) as Hnone.
      { intros Hx. destruct f as [|f]; [lia|]. cbn [get_one_loop]. destruct (Nat.ltb_spec (D + 1) (d + 1)); [lia|].
        cbn [get_node mbind prog_bind pbind run]. by rewrite Hx. }
      destruct (b_vis B s !! (if z then zero else one)) as [nd'|] eqn:Hl'.
      + intros Hg. apply (IH f (d + 1) _ nd' Hl' ltac:(lia)). revert Hg.
        destruct z; cbn [fst snd get_node mbind prog_bind pbind run].
        * destruct (b_vis B s !! one); cbn [mret prog_ret get_node mbind prog_bind pbind run]; rewrite Hl'; done.
        * rewrite Hl'. cbn [mret prog_ret get_node mbind prog_bind pbind run]. destruct (b_vis B s !! zero); done.
      + specialize (Hnone eq_refl). intros Hg. exists None. split; [done|]. revert Hg.
        destruct z; cbn [fst snd get_node mbind prog_bind pbind run].
        * destruct (b_vis B s !! one); cbn [mret prog_ret get_node mbind prog_bind pbind run]; rewrite Hl';
            cbn [mret prog_ret get_node mbind prog_bind pbind run]; rewrite Hnil; by intros [= <-].
        * rewrite Hl'. cbn [mret prog_ret get_node mbind prog_bind pbind run].
          destruct (b_vis B s !! zero); cbn [mret prog_ret get_node mbind prog_bind pbind run]; rewrite Hnil; by intros [= <-].
    - cbn [get_node mbind prog_bind pbind run].
      destruct (b_vis B s !! ld) as [nd'|] eqn:Hld; [|done]. destruct (var nd') as [| |e] eqn:Hv; [done|done|].
      destruct (dec e) as [v'| |] eqn:He; cbn [lift mbind prog_bind pbind run]; [|done|done]. rewrite search_one.
      destruct (decide (lk = k)) as [->|].
      + cbn. intros Hg. exists (Some v'). destruct f as [|f]; [lia|]. cbn [get_one_loop].
        destruct (Nat.ltb_spec (D + 1) (d + 1)); [lia|]. cbn [get_node mbind prog_bind pbind run].
        rewrite Hld, Hv. cbn [negb]. rewrite He. cbn. split; [done|]. destruct fuel; cbn in Hg; congruence.
      + rewrite Hnil. intros [= <-]. by exists None.
  Qed.
  Lemma get_one_absent D r k st : b_vis B st !! r = None → out B H (get_one dec D r k) st = ROk None.
  Proof.
    intros Hl. unfold get_one, out. replace (D + 2) with (S (S D)) by lia. cbn [get_one_loop].
    destruct (Nat.ltb_spec D 0) as [?|_]; [lia|]. cbn [get_node mbind prog_bind pbind run]. by rewrite Hl.
  Qed.
  Theorem any_get_one_get D r k v st : out B H (get_one dec D r k) st = ROk (Some v) →
    out B H (get dec D r [k]) st = ROk {[k := Some v]}.
  Proof.
    intros Hg. unfold get. change (sort_keys [k]) with [k]. unfold out. cbn [get_node mbind prog_bind pbind run].
    destruct (b_vis B st !! r) as [nd|] eqn:Hl.
    - assert (<[k := Some v]> (<[k := None]> ∅) = ({[k := Some v]} : gmap (arr n) (option V))) as <- by apply insert_insert.
      apply (get_one_then_get D _ (D + 2) k 0 r nd _ st v Hl); [|exact Hg]. unfold traverse_fuel. cbn. lia.
    - rewrite get_one_absent in Hg by done. done.
  Qed.
  Theorem any_get_get_one D r k lm st : out B H (get dec D r [k]) st = ROk lm →
    ∃ o, lm = {[k := o]} ∧ out B H (get_one dec (D + 1) r k) st = ROk o.
  Proof.
    unfold get. change (sort_keys [k]) with [k]. unfold out. cbn [get_node mbind prog_bind pbind run].
    destruct (b_vis B st !! r) as [nd|] eqn:Hl.
    - intros Hg. destruct (get_then_get_one D _ (D + 1 + 2) k 0 r nd _ lm st Hl ltac:(lia) Hg) as (o & Ho & ->).
      exists o. split; [|exact Ho]. destruct o; [|done]. apply (insert_insert (∅ : gmap (arr n) (option V)) k).
    - intros [= <-]. exists None. split; [done|]. by apply get_one_absent.
  Qed.

  (** [get_one] and [generate_inclusion_proof] walk alike. *)
  Lemma one_prove_loop D f k d fl l acc st :
    match out B H (get_one_loop dec D f k d fl l) st with
    | ROk (Some v) => ∃ p, out B H (gen_proof_loop D f k d fl acc l) st = ROk p
    | ROk None => out B H (gen_proof_loop D f k d fl acc l) st = RErr "Key not found in tree" ∨
                  out B H (gen_proof_loop D f k d fl acc l) st = RErr "Failed to find node"
    | RErr er => out B H (gen_proof_loop D f k d fl acc l) st = RErr er ∨
                 ∃ p e, out B H (gen_proof_loop D f k d fl acc l) st = ROk p ∧ dec e = Err er
    | RPanic => out B H (gen_proof_loop D f k d fl acc l) st = RPanic ∨
                 ∃ p e, out B H (gen_proof_loop D f k d fl acc l) st = ROk p ∧ dec e = Pan
    | RFuel => out B H (gen_proof_loop D f k d fl acc l) st = RFuel
    end.
  Proof.
    unfold out. revert d fl l acc. induction f as [|f IH]; intros d fl l acc; [done|]. cbn [get_one_loop gen_proof_loop].
    destruct (D <? d); [by left|]. cbn [get_node mbind prog_bind pbind run].
    destruct (b_vis B st !! l) as [nd|]; [|by right]. destruct (var nd) as [c zero one si bk|lk ld|e].
    - destruct fl; [by left|].
      destruct (calc_min_split_index [k] bk) as [m| |]; cbn [lift mbind prog_bind pbind run]; [|by left|by left].
      destruct (check_descendants [k] si bk m) as [[|x xs]| |]; cbn [lift mbind prog_bind pbind run]; try by left.
      destruct (choose_zero k si) as [[]| |]; cbn [lift mbind prog_bind pbind run]; try by left.
      + apply IH.
      + apply IH.
    - destruct fl; [by left|]. destruct (decide (lk = k)); [|by left]. cbn [hash mbind prog_bind pbind run].
      specialize (IH (d + 1) true ld (acc ++ [(H (leaf_in lk ld), false)])).
      destruct (run B H (gen_proof_loop _ _ _ _ _ _ _) st) as [[? ?] ?]. exact IH.
    - destruct fl; [|by left]. cbn [negb hash mbind prog_bind pbind run].
      destruct (dec e) as [v| |] eqn:He; cbn; eauto.
  Qed.
  Theorem any_get_one_prove D r k st (Hdec : ∀ e, dec e ≠ Pan) :
    match out B H (get_one dec D r k) st with
    | ROk (Some v) => ∃ p, out B H (generate_inclusion_proof D r k) st = ROk p
    | ROk None => out B H (generate_inclusion_proof D r k) st = RErr "Key not found in tree" ∨
                  out B H (generate_inclusion_proof D r k) st = RErr "Failed to find node"
    | RErr er => out B H (generate_inclusion_proof D r k) st = RErr er ∨
                 ∃ p e, out B H (generate_inclusion_proof D r k) st = ROk p ∧ dec e = Err er
    | o => out B H (generate_inclusion_proof D r k) st = match o with RPanic => RPanic | _ => RFuel end
    end.
  Proof.
    pose proof (one_prove_loop D (D + 2) k 0 false r [] st) as Hx. unfold get_one, generate_inclusion_proof.
    destruct (out B H (get_one_loop _ _ _ _ _ _ _) st) as [[v|]|er| |]; try done.
    destruct Hx as [?|(p & e & _ & He)]; [done|]. by apply Hdec in He.
  Qed.
End AnyReads.

(** ** Duplicate keys *)
Section AnyDup.
  Context {n : nat} (Hn : 0 < n) (B : backend n) (H : list bytes → arr n) {V : Type} (enc : V → res bytes).

  Lemma out_bind_ok {A C} (p : prog n A) (f : A → prog n C) st c : out B H (p ≫= f) st = ROk c →
    ∃ a st', out B H p st = ROk a ∧ out B H (f a) st' = ROk c.
  Proof.
    unfold out. rewrite run_bind. destruct (run B H p st) as [[[a|er| |] s'] lg]; cbn; try done.
    destruct (run B H (f a) s') as [[o s''] lg'] eqn:Hr. cbn. intros ->. exists a, s'. by rewrite Hr.
  Qed.
  Lemma generate_items_nodup i (rs : list (tref n)) its : StronglySorted tref_le rs → generate_items i rs = Ok its →
    StronglySorted klt (tkey <$> rs).
  Proof using Hn.
    revert i its. induction rs as [|r1 rs IH]; intros i its Hs Hg; [constructor|].
    apply StronglySorted_inv in Hs as [Hs F]. destruct rs as [|r2 rs]; [repeat constructor|].
    rewrite generate_items_cons in Hg. rewrite adjacent_split_key in Hg by done.
    destruct (decide (tkey r1 = tkey r2)) as [|Hne]; [done|]. cbn [mbind res_bind] in Hg.
    destruct (generate_items (S i) (r2 :: rs)) as [rest|er|] eqn:Hr; [|done|done].
    specialize (IH (S i) rest Hs Hr). rewrite fmap_cons. constructor; [done|].
    assert (klt (tkey r1) (tkey r2)) as Hlt.
    { apply Forall_cons in F as [Hle _]. unfold tref_le in Hle. apply arr_le_iff in Hle as [?|?]; done. }
    rewrite fmap_cons in *. apply StronglySorted_inv in IH as [_ IH]. constructor; [done|].
    eapply Forall_impl; [exact IH|]. intros k Hk. simpl in Hk. by eapply klt_trans.
  Qed.
  Lemma create_tree_nodup (rs : list (tref n)) st r : out B H (create_tree rs) st = ROk r → NoDup (tkey <$> rs).
  Proof using Hn.
    destruct rs as [|r1 [|r2 rs]]; [done| |].
    { intros _. apply NoDup_singleton. }
    unfold create_tree. set (rs0 := r1 :: r2 :: rs). intros (its & st' & Hits & _)%out_bind_ok.
    assert (generate_items 0 (sort_refs rs0) = Ok its) as Hg.
    { unfold out in Hits. destruct (generate_items 0 (sort_refs rs0)); cbn in Hits; congruence. }
    assert (Total (@tref_le n)) as Ht.
    { intros a b. unfold tref_le. apply (total (@arr_le n)). }
    assert (Transitive (@tref_le n)) as Htr.
    { intros a b c. unfold tref_le. apply (transitivity (R := @arr_le n)). }
    pose proof (generate_items_nodup 0 _ its (StronglySorted_merge_sort (@tref_le n) rs0) Hg) as Hk.
    apply klt_sorted_nodup in Hk. revert Hk. unfold sort_refs. by rewrite merge_sort_Permutation.
  Qed.
  Lemma insert_leaves_length (vm : gmap (arr n) V) ks st ls : out B H (insert_leaves enc vm ks) st = ROk ls → length ls = length ks.
  Proof using.
    revert st ls. induction ks as [|k ks IH]; intros st ls; cbn [insert_leaves].
    - by intros [= <-].
    - intros (l & st1 & _ & (ls' & st2 & Hls & [= <-])%out_bind_ok)%out_bind_ok. cbn. f_equal. by eapply IH.
  Qed.
  Theorem any_duplicates D prev (ks : list (arr n)) (vs : list V) st r : out B H (insert enc D prev ks vs) st = ROk r → NoDup ks.
  Proof using Hn.
    unfold insert. destruct (negb _); [done|]. destruct (_ || _); [done|]. unfold insert_sorted.
    intros (ls & st1 & Hls & (ps & st2 & _ & Hc)%out_bind_ok)%out_bind_ok.
    apply create_tree_nodup in Hc. apply insert_leaves_length in Hls.
    rewrite fmap_app in Hc. apply NoDup_app in Hc as [Hc _].
    assert (tkey <$> zip_with (λ l k, TRef k l 1 1) ls (sort_keys ks) = sort_keys ks) as Hz.
    { revert Hls. generalize (sort_keys ks). clear. induction ls as [|l ls IH]; intros [|k ks]; try done.
      intros [= Hl]. cbn. f_equal. by apply IH. }
    rewrite Hz in Hc. revert Hc. unfold sort_keys. by rewrite merge_sort_Permutation.
  Qed.
  Lemma insert_leaves_enc (vm : gmap (arr n) V) ks st ls (k : arr n) v :
    out B H (insert_leaves enc vm ks) st = ROk ls → k ∈ ks → vm !! k = Some v → ∃ e, enc v = Ok e.
  Proof using.
    intros Ho Hk Hv. revert st ls Ho Hk. induction ks as [|k' ks IH]; intros st ls Ho Hk; [by apply elem_of_nil in Hk|].
    cbn [insert_leaves] in Ho. apply out_bind_ok in Ho as (l & st1 & H1 & (ls' & st2 & Hls & _)%out_bind_ok).
    apply elem_of_cons in Hk as [->|Hk]; [|by eapply IH].
    unfold insert_leaves_one in H1. rewrite Hv in H1. apply out_bind_ok in H1 as (e & st3 & He & _).
    destruct (enc v) as [e'|er|]; [by exists e'|done|done].
  Qed.
  (** Every accepted batch is well-formed. *)
  Theorem any_accepted D prev (ks : list (arr n)) (vs : list V) st r : out B H (insert enc D prev ks vs) st = ROk r →
    length ks = length vs ∧ ks ≠ [] ∧ NoDup ks ∧ ∀ v, v ∈ vs → ∃ e, enc v = Ok e.
  Proof using Hn.
    intros Ho. pose proof (any_duplicates _ _ _ _ _ _ Ho) as Hnd. revert Ho.
    unfold insert. destruct (Nat.eqb_spec (length ks) (length vs)) as [Hlen|]; [|done]. cbn [negb].
    destruct (Nat.eqb_spec (length ks) 0) as [|Hne]; [done|]. destruct (Nat.eqb_spec (length vs) 0); [done|]. cbn [orb]. unfold insert_sorted.
    intros (ls & st1 & Hls & _)%out_bind_ok. split_and!; [done|by intros ->|done|].
    intros v [i Hv]%elem_of_list_lookup. destruct (lookup_lt_is_Some_2 ks i) as [k Hk].
    { rewrite Hlen. by eapply lookup_lt_Some. }
    eapply (insert_leaves_enc _ _ _ _ k v Hls).
    - rewrite elem_of_sort_keys. by eapply elem_of_list_lookup_2.
    - rewrite (value_map_zip Hn) by done. apply elem_of_list_to_map; [by rewrite fst_zip by lia|].
      apply elem_of_list_lookup. exists i. by rewrite lookup_zip_with, Hk, Hv.
  Qed.
End AnyDup.
