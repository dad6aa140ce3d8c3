(** * No panics in databases with split indices in range *)
From Coq Require Import Strings.Byte NArith.
From stdpp Require Import prelude countable gmap sorting strings.
From Verif Require Import Model Spec Bits Util Trie Store Logic Build Safe Hist Claims Wild Calm.

Local Open Scope nat_scope.

(** ** Pure functions *)
Section Pure.
  Context {n : nat}.
  Implicit Types (k : arr n) (ks : list (arr n)).

  Lemma choose_zero_calm k i : choose_zero k i ≠ Pan.
  Proof using. unfold choose_zero. by destruct (_ !! _). Qed.
  Lemma calc_min_calm ks k : calc_min_split_index ks k ≠ Pan.
  Proof using.
    unfold calc_min_split_index. destruct (head ks), (last ks); try done.
    destruct (arr_ltb k _); [done|]. by destruct (arr_ltb _ k).
  Qed.
  Lemma split_pairs_calm ks i : split_pairs ks i ≠ Pan.
  Proof using.
    unfold split_pairs. destruct (head ks) as [f|], (last ks) as [l|]; try done.
    pose proof (choose_zero_calm l i). pose proof (choose_zero_calm f i).
    destruct (choose_zero l i) as [[]|e|]; [done| |done|done]. cbn.
    destruct (choose_zero f i) as [[]|e|]; done.
  Qed.
  Lemma is_descendant_calm js s k1 k2 : (∀ j, j ∈ js → j < 8 * n) → is_descendant js s k1 k2 ≠ Pan.
  Proof using.
    induction js as [|j js IH]; intros Hj; [done|]. cbn [is_descendant].
    assert (j / 8 < n) as Hlt.
    { apply Nat.div_lt_upper_bound; [lia|]. specialize (Hj j ltac:(left)). lia. }
    assert (∀ k, ∃ b, index (k : bytes) (j / 8) = Ok b) as Hi.
    { intros k. unfold index. destruct (lookup_lt_is_Some_2 (k : bytes) (j / 8)) as [b Hb]; [by rewrite arr_length|].
      rewrite Hb. eauto. }
    destruct (Hi k1) as [b1 ->], (Hi k2) as [b2 ->]. cbn [mbind res_bind].
    destruct (decide (b1 = b2)); [|destruct (_ <? _); [done|]]; apply IH; intros j' ?; apply Hj; by right.
  Qed.
  (** The range never exceeds the slice: keys given [pre ++ ks], [i] the length of [pre]. *)
  Lemma descendant_range_calm js s bk len ks i start found : (∀ j, j ∈ js → j < 8 * n) →
    i + length ks = len → start ≤ i → (found = false → start = 0) → (ks = [] → found = false) →
    ∃ o, descendant_range js s bk len ks i start found = o ∧
      match o with Ok (a, b) => a ≤ b ∧ b ≤ len | Err _ => True | Pan => False end.
  Proof using.
    intros Hj. revert i start found. induction ks as [|k ks IH]; intros i start found Hl Hs Hf He.
    - cbn. eexists. split; [done|]. cbn. rewrite (Hf (He eq_refl)). lia.
    - cbn [descendant_range length] in *. pose proof (is_descendant_calm js s bk k Hj) as Hd.
      destruct (is_descendant js s bk k) as [d|e|]; [|by eexists|done]. cbn [mbind res_bind].
      destruct d, found; cbn [andb negb].
      + destruct (Nat.eqb_spec i (len - 1)) as [|Hi].
        * eexists. split; [done|]. cbn. lia.
        * apply IH; try lia; try done. intros ->. cbn in *. lia.
      + destruct (Nat.eqb_spec i (len - 1)) as [|Hi].
        * eexists. split; [done|]. cbn. lia.
        * apply IH; try lia; try done. intros ->. cbn in *. lia.
      + eexists. split; [done|]. cbn. lia.
      + apply IH; try lia; done.
  Qed.
  Lemma check_descendants_calm ks s bk m : s ≤ 8 * n → check_descendants ks s bk m ≠ Pan.
  Proof using.
    intros Hs. unfold check_descendants.
    destruct (descendant_range_calm (step8 m s) s bk (length ks) ks 0 0 false) as (o & Ho & Hp); try done; try lia.
    { intros j (i & _ & ?)%elem_of_step8. lia. }
    rewrite Ho. destruct o as [[a b]|e|]; [|done|done]. cbn [mbind res_bind fst snd]. unfold slice.
    destruct Hp. destruct (Nat.leb_spec a b); [|lia]. by destruct (Nat.leb_spec b (length ks)); [|lia].
  Qed.
  Lemma binary_search_by_calm {A} (f : A → comparison) xs fuel l r i : r ≤ length xs →
    binary_search_by f xs fuel l r = inl i → i < length xs.
  Proof using.
    revert l r. induction fuel as [|fuel IH]; intros l r Hr; [done|]. cbn [binary_search_by].
    destruct (Nat.ltb_spec l r) as [Hlr|]; [|done].
    assert (l + (r - l) / 2 < length xs) as Hm.
    { pose proof (Nat.div_lt (r - l) 2). lia. }
    destruct (xs !! (l + (r - l) / 2)) as [x|]; [|done]. destruct (f x).
    - intros [= <-]. done.
    - by apply IH.
    - apply IH. lia.
  Qed.
  Lemma binary_search_calm ks k i : binary_search ks k = Some i → index ks i ≠ Pan.
  Proof using.
    unfold binary_search. destruct (binary_search_by _ _ _ _ _) as [j|] eqn:He; [|done]. intros [= ->].
    apply binary_search_by_calm in He; [|done]. unfold index.
    apply lookup_lt_is_Some_2 in He as [x ->]. done.
  Qed.
  Lemma sum_cons w ws : sum_list (w :: ws) = w + sum_list ws.
  Proof using. done. Qed.
  Fixpoint wbounds (off : nat) (ws : list nat) : list (nat * nat) :=
    match ws with
    | w :: ((_ :: _) as ws') => (off + w - 1, off + w) :: wbounds (off + w) ws'
    | _ => []
    end.
  Lemma wbounds_app off ws1 wl wr ws2 :
    wbounds off (ws1 ++ wl :: wr :: ws2) =
      wbounds off (ws1 ++ [wl]) ++
      (off + sum_list ws1 + wl - 1, off + sum_list ws1 + wl) :: wbounds (off + sum_list ws1 + wl) (wr :: ws2).
  Proof using.
    revert off. induction ws1 as [|w ws1 IH]; intros off.
    - simpl. by rewrite Nat.add_0_r.
    - destruct ws1 as [|w' ws1].
      + cbn [app wbounds sum_list sum_list_with id]. rewrite !Nat.add_0_r. done.
      + specialize (IH (off + w)). cbn [app wbounds] in *. rewrite IH.
        cbn [app]. do 2 f_equal. rewrite !sum_cons, !Nat.add_assoc. done.
  Qed.
  Lemma wbounds_elem off ws i j : (i, j) ∈ wbounds off ws →
    ∃ ws1 wl wr ws2, ws = ws1 ++ wl :: wr :: ws2 ∧ i = off + sum_list ws1 + wl - 1 ∧ j = off + sum_list ws1 + wl.
  Proof using.
    revert off. induction ws as [|wl ws IH]; intros off Hin; [by apply elem_of_nil in Hin|].
    destruct ws as [|wr ws]; [by apply elem_of_nil in Hin|].
    cbn [wbounds] in Hin. apply elem_of_cons in Hin as [Heq|Hin].
    - injection Heq as -> ->. exists [], wl, wr, ws. simpl. by rewrite Nat.add_0_r.
    - apply IH in Hin as (ws1 & wl' & wr' & ws2 & -> & -> & ->).
      exists (wl :: ws1), wl', wr', ws2. rewrite sum_cons, !Nat.add_assoc. done.
  Qed.
  Lemma wbounds_merge off ws1 wl wr ws2 :
    wbounds off (ws1 ++ wl :: wr :: ws2) ≡ₚ
      (off + sum_list ws1 + wl - 1, off + sum_list ws1 + wl) :: wbounds off (ws1 ++ (wl + wr) :: ws2).
  Proof using.
    rewrite wbounds_app. rewrite <- Permutation_middle. constructor.
    assert (wbounds off (ws1 ++ [wl]) = wbounds off (ws1 ++ [wl + wr])) as ->.
    { clear. revert off. induction ws1 as [|w ws1 IH]; intros off; [done|].
      destruct ws1 as [|w' ws1]; [done|]. specialize (IH (off + w)).
      cbn [app wbounds] in *. by rewrite IH. }
    destruct ws2 as [|wq ws2].
    { cbn [wbounds]. by rewrite app_nil_r. }
    rewrite (wbounds_app _ ws1 (wl + wr)). cbn [wbounds]. rewrite !Nat.add_assoc. done.
  Qed.
  Fixpoint wrep (rs : list (tref n)) (off : nat) (ws : list nat) : Prop :=
    match ws with
    | [] => True
    | w :: ws' => 0 < w ∧ (∃ x, rs !! (off + w - 1) = Some x ∧ tcount x = w) ∧ chain rs off w 1 ∧ wrep rs (off + w) ws'
    end.
  Lemma wrep_app rs off ws1 ws2 : wrep rs off (ws1 ++ ws2) ↔ wrep rs off ws1 ∧ wrep rs (off + sum_list ws1) ws2.
  Proof using.
    revert off. induction ws1 as [|w ws1 IH]; intros off; cbn [app wrep].
    - cbn. rewrite Nat.add_0_r. naive_solver.
    - rewrite IH, sum_cons, Nat.add_assoc. naive_solver.
  Qed.
  Lemma wrep_frame rs rs' off ws :
    (∀ i, off ≤ i < off + sum_list ws → rs' !! i = rs !! i) → wrep rs off ws → wrep rs' off ws.
  Proof using.
    revert off. induction ws as [|w ws IH]; intros off Hf; cbn [wrep]; [done|].
    intros (Hw & (x & Hl & Hx) & Hch & Hrep). rewrite sum_cons in Hf. split_and!; [done| | |].
    - exists x. split; [|done]. rewrite Hf by lia. done.
    - eapply chain_frame; [lia|lia| |done]. intros i Hi. apply Hf. lia.
    - apply IH; [|done]. intros i Hi. apply Hf. lia.
  Qed.
  Lemma wrep_width rs off ws : wrep rs off ws → ws ≠ [] → off + sum_list ws ≤ length rs.
  Proof using.
    revert off. induction ws as [|w ws IH]; intros off Hrep Hne; [done|].
    rewrite sum_cons. destruct Hrep as (Hw & (x & Hl & _) & _ & Hrep).
    apply lookup_lt_Some in Hl. destruct ws as [|w' ws]; [cbn; lia|].
    specialize (IH _ Hrep ltac:(done)). lia.
  Qed.
  Lemma wrep_ones pre rs : Forall (λ r : tref n, tcount r = 1) rs → wrep (pre ++ rs) (length pre) (replicate (length rs) 1).
  Proof using.
    intros Hf. revert pre. induction Hf as [|r rs Hr Hf IH]; intros pre; simpl; [done|].
    assert ((pre ++ r :: rs) !! (length pre + 1 - 1) = Some r) as Hl.
    { rewrite lookup_app_r by lia. replace (length pre + 1 - 1 - length pre) with 0 by lia. done. }
    split_and!; [lia|by exists r| |].
    - by apply (chain_done _ _ _ r).
    - specialize (IH (pre ++ [r])). rewrite <- app_assoc, app_length in IH. done.
  Qed.
  Context (Hn : 0 < n).
  Lemma items_calm i (rs : list (tref n)) : generate_items i rs ≠ Pan ∧
    ∀ its, generate_items i rs = Ok its →
      ((λ it, (it.1.2, it.2)) <$> its) = wbounds i (replicate (length rs) 1) ∧ Forall (λ it, it.1.1 < 8 * n) its.
  Proof using Hn.
    revert i. induction rs as [|r1 rs IH]; intros i; [split; [done|]; by intros its [= <-]|].
    destruct rs as [|r2 rs]; [split; [done|]; by intros its [= <-]|].
    rewrite generate_items_cons. rewrite adjacent_split_key by done.
    destruct (decide (tkey r1 = tkey r2)) as [|Hne]; [done|]. cbn [mbind res_bind].
    destruct (IH (S i)) as [Hp Hit]. destruct (generate_items (S i) (r2 :: rs)) as [rest|e|]; [|done|done].
    cbn [mbind res_bind]. split; [done|]. intros its [= <-]. destruct (Hit rest eq_refl) as [Hit1 Hit2].
    split; [|constructor; [by apply klcp_lt|done]].
    cbn [length replicate wbounds] in *. rewrite fmap_cons. cbn [fst snd]. rewrite Hit1.
    replace (i + 1 - 1) with i by lia. by replace (S i) with (i + 1) by lia.
  Qed.
End Pure.

(** ** Programs *)
Definition in_range {n} (nd : node n) : Prop :=
  match var nd with VBranch _ _ _ si _ => si ≤ 8 * n | _ => True end.
Section Sane.
  Context {n : nat} {V : Type} (enc : V → res bytes) (dec : bytes → res V) (Hcodec : codec_ok enc dec).
  Implicit Types (k : arr n) (ks : list (arr n)).

  (** No panic if the nodes read are in range, and the nodes written are. *)
  Fixpoint np {A} (p : prog n A) (Q : A → Prop) : Prop :=
    match p with
    | Ret a => Q a
    | Throw _ | Fuel => True
    | Panic => False
    | Hash cs k => ∀ h, np (k h) Q
    | Get l k => ∀ o, (∀ nd, o = Some nd → in_range nd) → np (k o) Q
    | Put _ nd k => in_range nd ∧ np k Q
    | Del _ k | Flush k => np k Q
    end.
  Lemma np_bind {A C} (p : prog n A) (f : A → prog n C) (Q : C → Prop) : np p (λ a, np (f a) Q) → np (p ≫= f) Q.
  Proof using. induction p as [a|e| | |cs k IH|l k IH|l nd k IH|l k IH|k IH]; cbn; naive_solver. Qed.
  Lemma np_mono {A} (p : prog n A) (Q Q' : A → Prop) : (∀ a, Q a → Q' a) → np p Q → np p Q'.
  Proof using. intros HQ. induction p as [a|e| | |cs k IH|l k IH|l nd k IH|l k IH|k IH]; cbn; naive_solver. Qed.
  Lemma np_lift {A} (r : res A) (Q : A → Prop) : r ≠ Pan → (∀ a, r = Ok a → Q a) → np (lift r) Q.
  Proof using. destruct r; cbn; auto. Qed.

  Lemma get_one_np D fuel k d fl l : np (get_one_loop dec D fuel k d fl l) (λ _, True).
  Proof using Hcodec.
    revert d fl l. induction fuel as [|fuel IH]; intros d fl l; [done|]. cbn [get_one_loop].
    destruct (D <? d); [done|]. cbn [get_node mbind prog_bind pbind np]. intros [[rf v]|] Ho; [|done].
    specialize (Ho _ eq_refl). cbn [var]. destruct v as [c zero one si bk|lk ld|e].
    - destruct fl; [done|]. apply np_bind, np_lift; [apply calc_min_calm|]. intros m _.
      apply np_bind, np_lift; [by apply check_descendants_calm|]. intros [|d0 ds] _; [done|].
      apply np_bind, np_lift; [apply choose_zero_calm|]. intros z _. apply IH.
    - destruct fl; [done|]. destruct (decide (lk = k)); [apply IH|done].
    - destruct (negb fl); [done|]. apply np_bind, np_lift; [apply (dec_no_panic _ _ Hcodec)|done].
  Qed.
  Lemma gen_proof_np D fuel k d fl acc l : np (gen_proof_loop D fuel k d fl acc l) (λ _, True).
  Proof using.
    revert d fl acc l. induction fuel as [|fuel IH]; intros d fl acc l; [done|]. cbn [gen_proof_loop].
    destruct (D <? d); [done|]. cbn [get_node mbind prog_bind pbind np]. intros [[rf v]|] Ho; [|done].
    specialize (Ho _ eq_refl). cbn [var]. destruct v as [c zero one si bk|lk ld|e].
    - destruct fl; [done|]. apply np_bind, np_lift; [apply calc_min_calm|]. intros m _.
      apply np_bind, np_lift; [by apply check_descendants_calm|]. intros [|d0 ds] _; [done|].
      apply np_bind, np_lift; [apply choose_zero_calm|]. intros [] _; apply IH.
    - destruct fl; [done|]. destruct (decide (lk = k)); [|done]. cbn. intros h. apply IH.
    - by destruct (negb fl).
  Qed.
  Definition rcell (c : cell (n := n)) : Prop := in_range (cnode c).
  Lemma push_np q d l ks : Forall rcell q → np (push_cell_if_node q d l ks) (Forall rcell).
  Proof using.
    intros Hq. unfold push_cell_if_node. cbn [get_node mbind prog_bind pbind np]. intros [nd|] Ho; [|done].
    destruct ks as [|k ks]; [done|]. constructor; [|done]. by apply Ho.
  Qed.
  Lemma get_loop_np D fuel keys lm q : Forall rcell q → np (get_loop dec D fuel keys lm q) (λ _, True).
  Proof using Hcodec.
    revert lm q. induction fuel as [|fuel IH]; intros lm [|c q] Hq; try done.
    apply Forall_cons in Hq as [Hc Hq]. cbn [get_loop].
    destruct (D <? cdepth c); [done|].
    destruct c as [lc cks [rf v] dp]. unfold rcell in Hc. cbn [cloc cnode ckeys cdepth var] in *.
    destruct v as [c zero one si bk|lk ld|e]; [| |done].
    - apply np_bind, np_lift; [apply calc_min_calm|]. intros m _.
      apply np_bind, np_lift; [by apply check_descendants_calm|]. intros [|d0 ds] _; [by apply IH|].
      apply np_bind, np_lift; [apply split_pairs_calm|]. intros zo _.
      apply np_bind. eapply np_mono; [|by apply push_np]. intros q' Hq'.
      apply np_bind. eapply np_mono; [|by apply push_np]. intros q'' Hq''. by apply IH.
    - cbn [get_node mbind prog_bind pbind np]. intros [[rf' [| |e]]|] _; try done. cbn [var].
      apply np_bind, np_lift; [apply (dec_no_panic _ _ Hcodec)|]. intros v _.
      destruct (binary_search keys lk) as [i|] eqn:Hb; [|by apply IH].
      apply np_bind, np_lift; [by eapply binary_search_calm|]. intros k _. by apply IH.
  Qed.
  Lemma get_np D r ks : np (get dec D r ks) (λ _, True).
  Proof using Hcodec.
    destruct (decide (ks = [])) as [->|Hne]; [done|].
    assert (∀ A (a b : A), match ks with [] => a | _ => b end = b) as Hm by (by destruct ks).
    unfold get. rewrite Hm. clear Hm. cbn [get_node mbind prog_bind pbind np]. intros [nd|] Ho; [|done].
    apply get_loop_np. constructor; [|done]. by apply Ho.
  Qed.
  Lemma verify_np r k v p : np (verify_inclusion_proof (n := n) enc r k v p) (λ _, True).
  Proof using Hcodec.
    destruct p as [|p0 [|p1 items]]; [done|done|]. unfold verify_inclusion_proof.
    apply np_bind, np_lift; [apply (enc_no_panic _ _ Hcodec)|]. intros e _.
    cbn [hash mbind prog_bind pbind np]. intros h1. destruct (decide _); [|done].
    cbn [hash mbind prog_bind pbind np]. intros h2. destruct (decide _); [|done].
    apply np_bind. eapply (np_mono _ (λ _, True)); [intros cur _; by destruct (decide _)|].
    generalize h2. clear. induction items as [|[h b] items IH]; intros cur; [done|].
    cbn [verify_fold]. cbn [hash mbind prog_bind pbind np]. intros h'. apply IH.
  Qed.
  Lemma remove_np fuel q : np (remove_loop (n := n) fuel q) (λ _, True).
  Proof using.
    revert q. induction fuel as [|fuel IH]; intros [|l q]; try done. cbn [remove_loop].
    cbn [get_node mbind prog_bind pbind np]. intros [[rf v]|] Ho; [|apply IH].
    specialize (Ho _ eq_refl). cbn [refs var]. destruct (_ =? 0).
    - destruct v; cbn; apply IH.
    - cbn. split; [exact Ho|apply IH].
  Qed.

  (** Insertions *)
  Notation unit_refs := (Forall (λ r : tref n, tcount r = 1)).
  Lemma insert_leaves_np vm ks : (∀ k, k ∈ ks → is_Some (vm !! k)) → np (insert_leaves enc vm ks) (λ _, True).
  Proof using Hcodec.
    induction ks as [|k ks IH]; intros Hk; [done|]. cbn [insert_leaves]. apply np_bind.
    unfold insert_leaves_one. destruct (Hk k) as [v ->]; [by left|].
    apply np_bind, np_lift; [apply (enc_no_panic _ _ Hcodec)|]. intros e _.
    cbn [hash get_node db_insert mbind prog_bind pbind mret prog_ret np]. intros h1 h2 od _ ol _.
    split; [done|]. split; [done|].
    apply np_bind. eapply np_mono; [|apply IH; intros k' ?; apply Hk; by right]. done.
  Qed.
  Definition rpart (r : tref n + cell (n := n)) : Prop := match r with inl r => tcount r = 1 | inr c => rcell c end.
  Lemma split_nodes_np d b ks : np (split_nodes (n := n) d b ks) rpart.
  Proof using.
    unfold split_nodes. cbn [get_node mbind prog_bind pbind np]. intros [[rf v]|] Ho; [|done].
    specialize (Ho _ eq_refl). destruct ks as [|k ks]; [|done].
    cbn [var]. by destruct v.
  Qed.
  Lemma push_split_np r acc q : rpart r → unit_refs acc → Forall rcell q →
    unit_refs (push_split r acc q).1 ∧ Forall rcell (push_split r acc q).2.
  Proof using.
    intros Hr Ha Hq. destruct r; cbn in *; split; try done.
    - apply Forall_app. split; [done|]. by repeat constructor.
    - by constructor.
  Qed.
  Lemma insert_leaf_np (l : arr n) : np (insert_leaf l) (λ _, True).
  Proof using. unfold insert_leaf. cbn. intros [nd|] Ho; [|done]. cbn. split; [|done]. exact (Ho nd eq_refl). Qed.
  Lemma traverse_np D fuel km acc q : Forall rcell q → unit_refs acc → np (traverse_tree D fuel km acc q) (λ rs, unit_refs rs).
  Proof using.
    revert acc q. induction fuel as [|fuel IH]; intros acc [|c q] Hq Ha; try done.
    apply Forall_cons in Hq as [Hc Hq]. cbn [traverse_tree].
    destruct (D <? cdepth c); [done|].
    destruct c as [lc cks [rf v] dp]. unfold rcell in Hc. cbn [cloc cnode ckeys cdepth var refs] in *.
    destruct v as [c zero one si bk|lk ld|e]; [| |done].
    - apply np_bind, np_lift; [apply calc_min_calm|]. intros m _.
      apply np_bind. apply (np_mono _ (λ _, True)).
      2: { destruct (m <? si); [|done]. apply np_lift; [by apply check_descendants_calm|done]. }
      intros ds _. destruct ((m <? si) && (length ds =? 0)).
      + cbn [db_insert mbind prog_bind pbind np]. split; [exact Hc|]. apply IH; [done|].
        apply Forall_app. split; [done|]. by repeat constructor.
      + apply np_bind, np_lift; [apply split_pairs_calm|]. intros zo _.
        apply np_bind. eapply np_mono; [|apply split_nodes_np]. intros r1 Hr1.
        destruct (push_split_np r1 acc q Hr1 Ha Hq) as [Ha1 Hq1].
        destruct (push_split r1 acc q) as [acc1 q1]. cbn [fst snd] in *.
        apply np_bind. eapply np_mono; [|apply split_nodes_np]. intros r0 Hr0.
        destruct (push_split_np r0 acc1 q1 Hr0 Ha1 Hq1) as [Ha0 Hq0].
        destruct (push_split r0 acc1 q1) as [acc0 q0]. by apply IH.
    - destruct (km !! lk) as [l|].
      + destruct (decide (l = lc)); [|by apply IH].
        apply np_bind. eapply np_mono; [|apply insert_leaf_np]. intros _ _. by apply IH.
      + apply np_bind. eapply np_mono; [|apply insert_leaf_np]. intros _ _. apply IH; [done|].
        apply Forall_app. split; [done|]. by repeat constructor.
  Qed.

  (** The work list [L] is a permutation of the boundaries of the blocks. *)
  Definition mok (rs : list (tref n)) (L : list (nat * nat * nat)) : Prop :=
    Forall (λ it, it.1.1 < 8 * n) L ∧
    ∃ ws, wrep rs 0 ws ∧ wbounds 0 ws ≡ₚ ((λ it, (it.1.2, it.2)) <$> L).
  Lemma merge_one_np rs it L : mok rs (it :: L) → np (merge_one rs it) (λ x, mok x.1 L).
  Proof using.
    intros (HF & ws & Hrep & Hb). apply Forall_cons in HF as [Hsp HF]. destruct it as [[sp p] q]. cbn [fst snd] in *.
    rewrite fmap_cons in Hb. cbn [fst snd] in Hb.
    assert ((p, q) ∈ wbounds 0 ws) as Hin by (rewrite Hb; by left).
    apply wbounds_elem in Hin as (ws1 & wl & wr & ws2 & -> & Hp & Hq).
    rewrite Nat.add_0_l in Hp, Hq.
    assert (wbounds 0 (ws1 ++ (wl + wr) :: ws2) ≡ₚ ((λ it, (it.1.2, it.2)) <$> L)) as Hb'.
    { apply (Permutation_cons_inv (a := (p, q))). rewrite <- Hb. symmetry.
      rewrite Hp, Hq. apply (wbounds_merge 0 ws1 wl wr ws2). }
    pose proof Hrep as Hrep0. apply wrep_app in Hrep as [Hrep1 Hrep2]. rewrite Nat.add_0_l in Hrep2.
    pose proof (wrep_width _ _ _ Hrep0 ltac:(by destruct ws1)) as Hwd.
    assert (sum_list (ws1 ++ wl :: wr :: ws2) = sum_list ws1 + (wl + (wr + sum_list ws2))) as Hsum.
    { clear. induction ws1 as [|w ws1 IH]; [done|]. cbn [app]. rewrite !sum_cons, IH. lia. }
    rewrite Hsum in Hwd. clear Hrep0 Hsum.
    set (a := sum_list ws1) in *. cbn [wrep] in Hrep2.
    destruct Hrep2 as (Hwl & (xl & Hlp & Hxl) & Hchl & Hwr & (xr & Hlq & Hxr) & Hchr & Hrep2).
    assert (q = S p) as Hqp by lia.
    unfold merge_one. rewrite <- Hp in Hlp.
    unfold index. rewrite Hlp. cbn [lift mbind prog_bind pbind].
    replace (a + wl) with (S p) in Hchr by lia.
    assert (∃ rn, rs !! q = Some rn ∧
      (if 1 <? tcount rn then lookahead (length rs) rs p (tcount rn) else Ok (q, tcount rn)) =
        Ok (p + wr, wr)) as (rn & Hrn & Hla).
    { inversion Hchr as [x Hx Hw He|c x Hx Hlt Hc0 Hle Hch He].
      - assert (wr = 1) as Hw1 by congruence. exists x. rewrite Hw1 in *.
        replace (S p + 1 - 1) with q in Hx by lia. split; [done|].
        rewrite Hw. simpl. f_equal. f_equal; lia.
      - exists x. replace (S p + 1 - 1) with q in Hx by lia. split; [done|].
        destruct (Nat.ltb_spec 1 (tcount x)); [|lia].
        apply lookahead_chain; try lia. done. }
    rewrite Hrn. cbn [lift mbind prog_bind pbind]. rewrite Hla. cbn [lift mbind prog_bind pbind fst snd].
    replace (p + wr) with (a + wl + wr - 1) by lia. rewrite Hlq.
    cbn [lift mbind prog_bind pbind hash np]. intros bloc.
    cbn [db_insert mbind prog_bind pbind mret prog_ret np]. split; [unfold in_range; cbn; lia|].
    set (new := TRef _ _ _ _).
    assert (tcount new = wl + wr) as Hnew by (unfold new; cbn; lia).
    set (rs' := <[p := new]> (<[a + wl + wr - 1 := new]> rs)).
    assert (∀ i, i ≠ p → i ≠ a + wl + wr - 1 → rs' !! i = rs !! i) as Hfr.
    { intros i Hi1 Hi2. unfold rs'. rewrite !list_lookup_insert_ne by done. done. }
    assert (rs' !! p = Some new) as Hnp.
    { unfold rs'. apply list_lookup_insert. rewrite insert_length. lia. }
    assert (rs' !! (a + wl + wr - 1) = Some new) as Hnb.
    { unfold rs'. rewrite list_lookup_insert_ne by lia. apply list_lookup_insert. lia. }
    change (mok rs' L). split; [done|]. exists (ws1 ++ (wl + wr) :: ws2). split; [|done].
    apply wrep_app. rewrite Nat.add_0_l. fold a. split.
    - eapply wrep_frame; [|done]. fold a. intros i Hi. apply Hfr; lia.
    - cbn [wrep]. split_and!; [lia| | |].
      + exists new. rewrite Nat.add_assoc. by rewrite Hnb.
      + eapply (chain_extend rs rs' a wl wr 1 new); try lia; try done.
        * intros i Hi. apply Hfr; lia.
        * by rewrite <- Hp.
      + rewrite Nat.add_assoc. eapply wrep_frame; [|done]. intros i Hi. apply Hfr; lia.
  Qed.
  Lemma merge_level_np rs root lv L : mok rs (lv ++ L) → np (merge_level rs root lv) (λ x, mok x.1 L).
  Proof using.
    revert rs root. induction lv as [|it lv IH]; intros rs root Hm; [done|]. cbn [merge_level].
    apply np_bind. eapply np_mono; [|by apply (merge_one_np _ _ (lv ++ L))]. intros x Hx. by apply IH.
  Qed.
  Lemma merge_all_np rs root lvs : mok rs (mjoin lvs) → np (merge_all rs root lvs) (λ _, True).
  Proof using.
    revert rs root. induction lvs as [|lv lvs IH]; intros rs root Hm; [done|]. cbn [merge_all].
    apply np_bind. unfold merge_nodes. apply np_bind.
    eapply np_mono; [|by apply (merge_level_np _ _ _ (mjoin lvs))]. intros x Hx. cbn. by apply IH.
  Qed.
  Context (Hn : 0 < n).
  Lemma create_tree_np rs : unit_refs rs → np (create_tree rs) (λ _, True).
  Proof using Hn.
    intros Hu. destruct rs as [|r1 [|r2 rs]]; [done|done|]. unfold create_tree.
    set (rs' := sort_refs _).
    assert (unit_refs rs') as Hu'.
    { unfold rs', sort_refs. by rewrite merge_sort_Permutation. }
    destruct (items_calm Hn 0 rs') as [Hp Hit].
    apply np_bind, np_lift; [done|]. intros its Hits. destruct (Hit its Hits) as [Hw Hlt].
    apply np_bind. eapply (np_mono _ (λ _, True)); [by intros [] _|]. apply merge_all_np.
    destruct (levels_of_spec its) as (Hperm & _). split; [by rewrite Hperm|].
    exists (replicate (length rs') 1). split; [by apply (wrep_ones [])|].
    rewrite Hperm. by rewrite Hw.
  Qed.
  Lemma insert_sorted_np D prev ks vm : (∀ k, k ∈ ks → is_Some (vm !! k)) →
    np (insert_sorted enc D prev ks vm) (λ _, True).
  Proof using Hn Hcodec.
    intros Hvm. unfold insert_sorted. apply np_bind. eapply np_mono; [|by apply insert_leaves_np].
    intros ls _. cbn beta. apply np_bind. eapply (np_mono _ (λ rs, unit_refs rs)).
    { intros ps Hps. apply create_tree_np. apply Forall_app. split; [|done]. clear.
      revert ks. induction ls as [|l ls IH]; intros [|k ks]; cbn; try constructor; [done|apply IH]. }
    destruct prev as [root|]; [|constructor]. unfold generate_treerefs. cbn [get_node mbind prog_bind pbind np].
    intros [nd|] Ho; [|done]. apply traverse_np; [|constructor]. constructor; [|done]. by apply Ho.
  Qed.
  Lemma exec_np (c : call n V) : np (exec enc dec c) (λ _, True).
  Proof using Hn Hcodec.
    destruct c as [D prev ks vs|D prev k v|D root ks|D root k|D root k|root k v proof]; cbn [exec].
    - apply np_bind. eapply (np_mono _ (λ _, True)); [done|].
      unfold insert. destruct (Nat.eqb_spec (length ks) (length vs)) as [Hl|]; [|done]. cbn [negb].
      destruct (length ks =? 0); [done|]. cbn [orb].
      destruct (length vs =? 0); [done|]. apply insert_sorted_np.
      intros k Hk. rewrite elem_of_sort_keys in Hk. by apply value_map_some.
    - apply np_bind. eapply (np_mono _ (λ _, True)); [done|]. apply insert_sorted_np.
      intros k' ->%elem_of_list_singleton. rewrite lookup_singleton. by eexists.
    - apply np_bind. eapply (np_mono _ (λ _, True)); [done|]. apply get_np.
    - apply np_bind. eapply (np_mono _ (λ _, True)); [done|]. apply get_one_np.
    - apply np_bind. eapply (np_mono _ (λ _, True)); [done|]. apply gen_proof_np.
    - apply verify_np.
  Qed.
End Sane.

Section SaneDb.
  Context {n : nat} (B : backend n) {HB : BackendOk B} (H : list bytes → arr n).
  (** What is stored and what is queued is in range. *)
  Definition sane (st : b_st B) : Prop :=
    (∀ l nd, b_vis B st !! l = Some nd → in_range nd) ∧ (∀ l nd, bview st !! l = Some nd → in_range nd).
  Lemma sane_init : sane (b_init B).
  Proof using. split; intros l nd; [rewrite bvis_init|rewrite bview_init]; by rewrite lookup_empty. Qed.
  Lemma sane_put st l nd : in_range nd → sane st → sane (b_put B st l nd).
  Proof using.
    intros Hnd [Hv Hw]. assert (∀ l' nd', bview (b_put B st l nd) !! l' = Some nd' → in_range nd') as Hw'.
    { intros l' nd'. rewrite bview_put. destruct (decide (l' = l)) as [->|Hne].
      - rewrite lookup_insert. by intros [= <-].
      - rewrite lookup_insert_ne by done. apply Hw. }
    split; [|done]. intros l' nd'. destruct (bvis_put st l nd) as [->| ->]; [apply Hv|apply Hw'].
  Qed.
  Lemma sane_del st l : sane st → sane (b_del B st l).
  Proof using.
    intros [Hv Hw]. split; intros l' nd.
    - rewrite bvis_del, lookup_delete_Some. intros [_ ?]. by eapply Hv.
    - intros ?%bview_del_sub. by eapply Hw.
  Qed.
  Lemma sane_flush st : sane st → sane (b_flush B st).
  Proof using. intros [Hv Hw]. split; intros l nd; [rewrite bvis_flush|rewrite bview_flush]; apply Hw. Qed.
  Lemma sane_drop st : sane st → sane (b_drop B st).
  Proof using. intros [Hv Hw]. split; intros l nd; [rewrite bvis_drop|rewrite bview_drop]; apply Hv. Qed.
  Lemma np_run {A} (p : prog n A) Q st : np p Q → sane st → out B H p st ≠ RPanic ∧ sane (fin B H p st) ∧ Forall sane (states B H p st).
  Proof using.
    unfold out, fin. revert st.
    induction p as [a|e| | |cs k IH|l k IH|l nd k IH|l k IH|k IH]; intros st Hp Hs; cbn [run states np] in *; try done;
      try (split_and!; [done|done|by apply Forall_singleton]).
    - destruct (IH (H cs) st (Hp _) Hs) as (H1 & H2 & H3). destruct (run B H (k (H cs)) st) as [[o s'] lg].
      split_and!; [done|done|by constructor].
    - destruct (IH (b_vis B st !! l) st) as (H1 & H2 & H3); [|done|split_and!; [done|done|by constructor]].
      apply Hp. intros nd Hnd. destruct Hs as [Hv _]. by eapply Hv.
    - destruct Hp as [Hnd Hp]. destruct (IH _ Hp (sane_put st l nd Hnd Hs)) as (H1 & H2 & H3).
      split_and!; [done|done|by constructor].
    - destruct (IH _ Hp (sane_del st l Hs)) as (H1 & H2 & H3). split_and!; [done|done|by constructor].
    - destruct (IH _ Hp (sane_flush st Hs)) as (H1 & H2 & H3). split_and!; [done|done|by constructor].
  Qed.
  Lemma np_fault {A} (p : prog n A) Q i st : np p Q → sane st → sane (run_fault B H i p st).2.
  Proof using.
    revert i st. induction p as [a|e| | |cs k IH|l k IH|l nd k IH|l k IH|k IH]; intros i st Hp Hs; cbn [run_fault np] in *; try done.
    - by apply IH.
    - destruct i; [done|]. apply IH; [|done]. apply Hp. intros nd Hnd. destruct Hs as [Hv _]. by eapply Hv.
    - destruct i; [done|]. destruct Hp. apply IH; [done|]. by apply sane_put.
    - destruct i; [done|]. apply IH; [done|]. by apply sane_del.
    - destruct i; [by apply sane_drop|]. apply IH; [done|]. by apply sane_flush.
  Qed.
  Context {V : Type} (enc : V → res bytes) (dec : bytes → res V) (Hcodec : codec_ok enc dec) (Hn : 0 < n).
  Theorem sane_call st c i : sane st →
    (out B H (exec enc dec c) st = ROk tt ∨ ∃ er, out B H (exec enc dec c) st = RErr er) ∧
    ((run_fault B H i (exec enc dec c) st).1 = ROk tt ∨ ∃ er, (run_fault B H i (exec enc dec c) st).1 = RErr er).
  Proof using HB Hcodec Hn.
    intros Hs. pose proof (exec_np enc dec Hcodec Hn c) as Hp.
    assert (out B H (exec enc dec c) st = ROk tt ∨ ∃ er, out B H (exec enc dec c) st = RErr er) as Ho.
    { destruct (np_run _ _ st Hp Hs) as (Ho & _). pose proof (exec_no_fuel Hn B H enc dec c st) as Hf.
      destruct (out B H (exec enc dec c) st) as [[]|er| |]; try done; eauto. }
    split; [done|]. destruct (fault_outcome B H (exec enc dec c) i st) as [->| ->]; [eauto|done].
  Qed.
  Theorem sane_kept st : sane st →
    (∀ c, Forall sane (states B H (exec enc dec c) st) ∧ sane (fin B H (exec enc dec c) st) ∧
       ∀ i, sane (run_fault B H i (exec enc dec c) st).2) ∧
    (∀ fuel root, out B H (remove fuel root) st ≠ RPanic ∧
       Forall sane (states B H (remove fuel root) st) ∧ sane (fin B H (remove fuel root) st) ∧
       ∀ i, sane (run_fault B H i (remove fuel root) st).2) ∧
    sane (b_drop B st) ∧ (∀ l, sane (b_del B st l)) ∧ (∀ l nd, in_range nd → sane (b_flush B (b_put B st l nd))).
  Proof using HB Hcodec Hn.
    intros Hs. split_and!.
    - intros c. pose proof (exec_np enc dec Hcodec Hn c) as Hp. destruct (np_run _ _ st Hp Hs) as (_ & H1 & H2).
      split_and!; [done|done|]. intros i. by eapply np_fault.
    - intros fuel root. pose proof (remove_np (n := n) fuel [root]) as Hp. destruct (np_run _ _ st Hp Hs) as (H0 & H1 & H2).
      split_and!; [done|done|done|]. intros i. by eapply np_fault.
    - by apply sane_drop.
    - intros l. by apply sane_del.
    - intros l nd Hnd. by apply sane_flush, sane_put.
  Qed.
End SaneDb.

(** ** A split index out of range makes some request panic *)
Section Tight.
  Context {n : nat} (Hn : 0 < n).
  Implicit Types (k : arr n).
  Lemma other_key k : ∃ k', klcp k' k = 0 ∧ k' ≠ k.
  Proof using Hn.
    assert (∃ k', klcp k' k = 0) as [k' Hk].
    { pose proof (arr_length k) as Hl. destruct (k : bytes) as [|x l] eqn:Hx; [cbn in Hl; lia|].
      assert (∃ y, ∀ l1 l2 : list bool, lcp (byte_bits y ++ l1) (byte_bits x ++ l2) = 0) as [y Hy].
      { clear. destruct x; solve [exists x00; intros; reflexivity|exists xff; intros; reflexivity]. }
      exists (exist _ (y :: l) Hl). unfold klcp. rewrite Hx. apply Hy. }
    exists k'. split; [done|]. intros ->. rewrite klcp_refl in Hk. lia.
  Qed.
  Lemma descendant_beyond js s k : (∃ j, j ∈ js ∧ n ≤ j / 8) → is_descendant js s k k = Pan.
  Proof using Hn.
    intros (j & Hj & Hle). induction js as [|j' js IH]; [by apply elem_of_nil in Hj|]. cbn [is_descendant].
    unfold index. destruct ((k : bytes) !! (j' / 8)) as [b|] eqn:Hb; [|done]. cbn [mbind res_bind].
    rewrite decide_True by done. apply IH. apply elem_of_cons in Hj as [->|]; [|done].
    apply lookup_lt_Some in Hb. rewrite arr_length in Hb. lia.
  Qed.
  Lemma check_beyond k k' ks s : 8 * n < s → klcp k' k = 0 → k' ≠ k → ks ≡ₚ [k'; k] → check_descendants ks s k 0 = Pan.
  Proof using Hn.
    intros Hs Hl Hne Hp. unfold check_descendants.
    assert (is_descendant (step8 0 s) s k k = Pan) as Hpan.
    { apply descendant_beyond. exists (8 * n). split; [apply elem_of_step8; exists n; lia|].
      rewrite Nat.mul_comm, Nat.div_mul; lia. }
    assert (is_descendant (step8 0 s) s k k' = Pan ∨ is_descendant (step8 0 s) s k k' = Ok false) as Hd.
    { right. assert (∃ js, step8 0 s = 0 :: js) as [js ->].
      { unfold step8. assert (∃ w, (s - 0 + 7) / 8 = S w) as [w ->].
        { exists ((s - 1 + 7 - 7) / 8 + 0). replace (s - 0 + 7) with (s - 1 + 1 * 8) by lia.
          rewrite Nat.div_add by lia. replace (s - 1 + 7 - 7) with (s - 1) by lia. lia. }
        eexists. reflexivity. }
      cbn [is_descendant]. rewrite (Nat.div_small 0 8) by lia.
      destruct (lookup_lt_is_Some_2 (k : bytes) 0) as [x Hx]; [rewrite arr_length; lia|].
      destruct (lookup_lt_is_Some_2 (k' : bytes) 0) as [y Hy]; [rewrite arr_length; lia|].
      unfold index. rewrite Hx, Hy. cbn [mbind res_bind].
      assert (x ≠ y) as Hxy.
      { intros ->. destruct (k : bytes) as [|x l] eqn:Hk; [done|]. destruct (k' : bytes) as [|x' l'] eqn:Hk'; [done|].
        injection Hx as ->. injection Hy as ->. unfold klcp in Hl. rewrite Hk, Hk' in Hl.
        revert Hl. clear. destruct y; discriminate. }
      rewrite decide_False by done.
      destruct (Nat.ltb_spec (split_bit_at 0 x y) s) as [|Hge]; [done|].
      unfold split_bit_at in Hge. lia. }
    destruct (Permutation_length_2_inv (symmetry Hp)) as [->| ->]; cbn [descendant_range].
    - destruct Hd as [-> | ->]; [done|]. cbn [mbind res_bind andb negb]. cbn [descendant_range]. by rewrite Hpan.
    - by rewrite Hpan.
  Qed.
  Context (B : backend n) (H : list bytes → arr n) {V : Type} (dec : bytes → res V).
  Theorem beyond_panics st r rf c zero one si bk : b_vis B st !! r = Some (Node rf (VBranch c zero one si bk)) → 8 * n < si →
    ∃ ks, ∀ D, out B H (get dec D r ks) st = RPanic.
  Proof using Hn.
    intros Hr Hsi. destruct (other_key bk) as (k' & Hl & Hne). exists [k'; bk]. intros D.
    unfold out, get. cbn [get_node mbind prog_bind pbind run]. rewrite Hr. set (ks := sort_keys [k'; bk]).
    assert (ks ≡ₚ [k'; bk]) as Hp by apply sort_keys_perm.
    assert (∃ w, traverse_fuel D ks = S w) as [w ->] by (eexists; unfold traverse_fuel; by rewrite Nat.add_1_r).
    cbn [get_loop cdepth cnode var ckeys]. destruct (Nat.ltb_spec D 0); [lia|].
    destruct (calc_min_split_index_spec ks bk Hn) as (m & -> & _ & Hm); [apply sort_keys_sorted|intros Hks; by rewrite Hks in Hp; apply Permutation_nil in Hp|].
    assert (k' ∈ ks) as Hin by (rewrite Hp; by left).
    assert (m = 0) as ->.
    { destruct Hm as [[Hall _]|[Hle _]]; [by destruct Hne; apply Hall|]. apply Hle in Hin. lia. }
    cbn [lift mbind prog_bind pbind]. rewrite (check_beyond bk k' ks si) by done. done.
  Qed.
End Tight.

(** ** Histories with foreign nodes *)
Section Rough.
  Context {n : nat} (B : backend n) (H : list bytes → arr n).
  Context {V : Type} (enc : V → res bytes) (dec : bytes → res V).
  (** Calls that finish or stop anywhere, removals, storage errors, restarts, lost nodes, and nodes written by others
      whose split index is in range. *)
  Inductive rough : b_st B → Prop :=
  | rough_init : rough (b_init B)
  | rough_call st c st' : rough st → st' ∈ states B H (exec enc dec c) st → rough st'
  | rough_remove st fuel r st' : rough st → st' ∈ states B H (remove fuel r) st → rough st'
  | rough_fault st c i : rough st → rough (run_fault B H i (exec enc dec c) st).2
  | rough_restart st : rough st → rough (b_drop B st)
  | rough_lose st l : rough st → rough (b_del B st l)
  | rough_plant st l nd : rough st → in_range nd → rough (b_flush B (b_put B st l nd)).
  Lemma wild_rough st lg : wild B H enc dec st lg → rough st.
  Proof using.
    induction 1; [constructor|by eapply rough_call|by eapply rough_remove|by apply rough_fault|by apply rough_restart|by apply rough_lose].
  Qed.
  Context {HB : BackendOk B} (Hcodec : codec_ok enc dec) (Hn : 0 < n).
  Lemma rough_sane st : rough st → sane B st.
  Proof using Hcodec Hn.
    induction 1 as [|st c st' _ IH Hin|st fuel r st' _ IH Hin|st c i _ IH|st _ IH|st l _ IH|st l nd _ IH Hnd]; [apply sane_init|..];
      destruct (sane_kept B H enc dec Hcodec Hn st IH) as (H1 & H2 & H3 & H4 & H5).
    - destruct (H1 c) as (Hf & _). rewrite Forall_forall in Hf. by apply Hf.
    - destruct (H2 fuel r) as (_ & Hf & _). rewrite Forall_forall in Hf. by apply Hf.
    - by destruct (H1 c) as (_ & _ & Hf).
    - done.
    - done.
    - by apply H5.
  Qed.
  Theorem rough_no_panic st c i : rough st →
    (out B H (exec enc dec c) st = ROk tt ∨ ∃ er, out B H (exec enc dec c) st = RErr er) ∧
    ((run_fault B H i (exec enc dec c) st).1 = ROk tt ∨ ∃ er, (run_fault B H i (exec enc dec c) st).1 = RErr er).
  Proof using HB Hcodec Hn. intros Hr. apply (sane_call B H enc dec Hcodec Hn). by apply rough_sane. Qed.
  Theorem rough_remove_no_panic st fuel r : rough st → out B H (remove fuel r) st ≠ RPanic.
  Proof using HB Hcodec Hn.
    intros Hr%rough_sane. destruct (sane_kept B H enc dec Hcodec Hn st Hr) as (_ & H2 & _). by apply H2.
  Qed.
  Theorem wild_never_panics st lg c i : wild B H enc dec st lg →
    (out B H (exec enc dec c) st = ROk tt ∨ ∃ er, out B H (exec enc dec c) st = RErr er) ∧
    ((run_fault B H i (exec enc dec c) st).1 = ROk tt ∨ ∃ er, (run_fault B H i (exec enc dec c) st).1 = RErr er).
  Proof using HB Hcodec Hn. intros Hw. apply rough_no_panic. by eapply wild_rough. Qed.
  (** Exactly the databases without nodes out of range are safe. *)
  Theorem panic_exact st :
    ((∀ l nd, b_vis B st !! l = Some nd → in_range nd) ∧ (∀ l nd, b_vis B (b_flush B st) !! l = Some nd → in_range nd)) ↔
    (∀ c, out B H (exec enc dec c) st ≠ RPanic ∧ out B H (exec enc dec c) (b_flush B st) ≠ RPanic).
  Proof using HB Hcodec Hn.
    split.
    - intros [Hv Hw] c. assert (sane B st) as Hs by (split; [done|]; by rewrite <- bvis_flush).
      pose proof (exec_np enc dec Hcodec Hn c) as Hp. split.
      + by destruct (np_run B H _ _ st Hp Hs).
      + by destruct (np_run B H _ _ _ Hp (sane_flush B st Hs)).
    - intros Hc. assert (∀ st', (∀ c, out B H (exec enc dec c) st' ≠ RPanic) → ∀ l nd, b_vis B st' !! l = Some nd → in_range nd) as Hg.
      { clear -Hn. intros st Hc l [rf [c zero one si bk| |]] Hl; [|done|done]. unfold in_range. cbn.
        destruct (Nat.le_gt_cases si (8 * n)) as [|Hgt]; [done|]. exfalso.
        destruct (beyond_panics Hn B H dec st l rf c zero one si bk Hl Hgt) as [ks Hks].
        apply (Hc (CGet 0 l ks)). cbn [exec]. specialize (Hks 0). unfold out in *. rewrite run_bind.
        destruct (run B H (get dec 0 l ks) st) as [[o s'] lg]. cbn in Hks. by rewrite Hks. }
      split; apply Hg; apply Hc.
  Qed.
End Rough.
