(** * No panics, whatever the history *)
From Coq Require Import Strings.Byte NArith.
From stdpp Require Import prelude countable gmap sorting strings.
From Verif Require Import Model Spec Bits Util Trie Store Logic Build Evol Route Reads Insert Update Safe Get Hist Claims RefCount Live Struct Weak
  Total Machine Counts Wild.

Local Open Scope nat_scope.

Section Calm.
  Context {n : nat} (Hn : 0 < n) (H : list bytes → arr n) (S : list bytes → Prop) (Hinj : inj_on H S).
  Context {V : Type} (enc : V → res bytes) (dec : bytes → res V) (Hcodec : codec_ok enc dec).
  Implicit Types (t : trie n) (k : arr n) (ks : list (arr n)).

  (** No panic, if the nodes read are those their locations stand for. *)
  Fixpoint calm {A} (p : prog n A) (Q : A → Prop) : Prop :=
    match p with
    | Ret a => Q a
    | Throw _ | Fuel => True
    | Panic => False
    | Hash cs k => S cs → calm (k (H cs)) Q
    | Get l k => ∀ o, (∀ nd, o = Some nd → obj_put H S l nd) → calm (k o) Q
    | Put _ _ k | Del _ k | Flush k => calm k Q
    end.
  Lemma calm_bind {A C} (p : prog n A) (f : A → prog n C) (Q : C → Prop) : calm p (λ a, calm (f a) Q) → calm (p ≫= f) Q.
  Proof using. induction p as [a|e| | |cs k IH|l k IH|l nd k IH|l k IH|k IH]; cbn; naive_solver. Qed.
  Lemma calm_mono {A} (p : prog n A) (Q Q' : A → Prop) : (∀ a, Q a → Q' a) → calm p Q → calm p Q'.
  Proof using. intros HQ. induction p as [a|e| | |cs k IH|l k IH|l nd k IH|l k IH|k IH]; cbn; naive_solver. Qed.
  Lemma calm_lift {A} (r : res A) (Q : A → Prop) : r ≠ Pan → (∀ a, r = Ok a → Q a) → calm (lift r) Q.
  Proof using. destruct r; cbn; auto. Qed.
  Lemma calm_out {A} (B : backend n) (p : prog n A) Q s : calm p Q → (∀ x, x ∈ hlog B H p s → S x) →
    Forall (λ s, shallow H S (b_vis B s)) (states B H p s) → out B H p s ≠ RPanic.
  Proof using.
    unfold out, hlog. revert s.
    induction p as [a|e| | |cs k IH|l k IH|l nd k IH|l k IH|k IH]; intros s; cbn; try done.
    - intros Hc Hs Hf. apply Forall_cons in Hf as [_ Hf]. specialize (IH (H cs) s).
      destruct (run B H (k (H cs)) s) as [[o s'] lg]. cbn in *. apply IH; [apply Hc, Hs; by left| |done].
      intros x Hx. apply Hs. by right.
    - intros Hc Hs Hf. apply Forall_cons in Hf as [Hv Hf]. apply IH; [|done|done]. apply Hc. intros nd Hnd.
      destruct (Hv _ _ Hnd) as (o & ?). by exists o.
    - intros Hc Hs Hf. apply Forall_cons in Hf as [_ Hf]. by apply IH.
    - intros Hc Hs Hf. apply Forall_cons in Hf as [_ Hf]. by apply IH.
    - intros Hc Hs Hf. apply Forall_cons in Hf as [_ Hf]. by apply IH.
  Qed.

  Lemma obj_branch l rf count zero one si bk : obj_put H S l (Node rf (VBranch count zero one si bk)) → si < 8 * n.
  Proof using.
    intros (o & _ & Hw & _ & Hv). destruct o as [[k e|t1 t2]|k e]; cbn in Hv; simplify_eq.
    apply tsplit_lt. by destruct Hw as (_ & _ & ?).
  Qed.
  Lemma obj_branch_ref l rf count zero one si bk : obj_put H S l (Node rf (VBranch count zero one si bk)) →
    ref_ok H S (TRef bk l count 1).
  Proof using.
    intros (o & Ho & Hw & <- & Hv). destruct o as [[k e|t1 t2]|k e]; cbn in Hv; simplify_eq.
    exists (TNode t1 t2). split; [done|]. by split.
  Qed.
  Lemma obj_leaf_ref l rf lk ld : obj_put H S l (Node rf (VLeaf lk ld)) → ref_ok H S (TRef lk l 1 1).
  Proof using.
    intros (o & Ho & Hw & <- & Hv). destruct o as [[k e|t1 t2]|k e]; cbn in Hv; simplify_eq.
    exists (TLeaf lk e). split; [done|]. by split.
  Qed.

  (** Reads *)
  Lemma get_one_calm D fuel k d fl l : calm (get_one_loop dec D fuel k d fl l) (λ _, True).
  Proof using Hn Hcodec.
    revert d fl l. induction fuel as [|fuel IH]; intros d fl l; [done|]. cbn [get_one_loop].
    destruct (D <? d); [done|]. cbn [get_node mbind prog_bind pbind calm]. intros [[rf v]|] Ho; [|done].
    specialize (Ho _ eq_refl). cbn [var]. destruct v as [c zero one si bk|lk ld|e].
    - pose proof (obj_branch _ _ _ _ _ _ _ Ho) as Hsi. destruct fl; [done|].
      destruct (single_desc Hn k bk si) as (m & -> & Hc); [lia|]. cbn [lift mbind prog_bind pbind]. rewrite Hc.
      cbn [lift mbind prog_bind pbind]. destruct (decide (si ≤ klcp k bk)); [|done].
      rewrite choose_zero_ok by done. apply IH.
    - destruct fl; [done|]. destruct (decide (lk = k)); [apply IH|done].
    - destruct (negb fl); [done|]. apply calm_bind, calm_lift; [apply (dec_no_panic _ _ Hcodec)|done].
  Qed.
  Lemma gen_proof_calm D fuel k d fl acc l : calm (gen_proof_loop D fuel k d fl acc l) (λ _, True).
  Proof using Hn.
    revert d fl acc l. induction fuel as [|fuel IH]; intros d fl acc l; [done|]. cbn [gen_proof_loop].
    destruct (D <? d); [done|]. cbn [get_node mbind prog_bind pbind calm]. intros [[rf v]|] Ho; [|done].
    specialize (Ho _ eq_refl). cbn [var]. destruct v as [c zero one si bk|lk ld|e].
    - pose proof (obj_branch _ _ _ _ _ _ _ Ho) as Hsi. destruct fl; [done|].
      destruct (single_desc Hn k bk si) as (m & -> & Hc); [lia|]. cbn [lift mbind prog_bind pbind]. rewrite Hc.
      cbn [lift mbind prog_bind pbind]. destruct (decide (si ≤ klcp k bk)); [|done].
      rewrite choose_zero_ok by done. cbn [lift mbind prog_bind pbind]. destruct (negb _); apply IH.
    - destruct fl; [done|]. destruct (decide (lk = k)); [|done]. cbn. intros _. apply IH.
    - by destruct (negb fl).
  Qed.
  Definition kcell (c : cell (n := n)) : Prop := obj_put H S (cloc c) (cnode c) ∧ ksorted (ckeys c) ∧ ckeys c ≠ [].
  Lemma push_calm q d l ks : Forall kcell q → ksorted ks → calm (push_cell_if_node q d l ks) (Forall kcell).
  Proof using.
    intros Hq Hk. unfold push_cell_if_node. cbn [get_node mbind prog_bind pbind calm]. intros [nd|] Ho; [|done].
    destruct ks as [|k ks]; [done|]. constructor; [|done]. split_and!; [by apply Ho|done|done].
  Qed.
  Lemma get_loop_calm D fuel keys lm q : ksorted keys → Forall kcell q → calm (get_loop dec D fuel keys lm q) (λ _, True).
  Proof using Hn Hcodec.
    intros Hkeys. revert lm q. induction fuel as [|fuel IH]; intros lm [|c q] Hq; try done.
    apply Forall_cons in Hq as [(Hc & Hks & Hne) Hq]. cbn [get_loop].
    destruct (D <? cdepth c); [done|].
    destruct c as [lc cks [rf v] dp]. cbn [cloc cnode ckeys cdepth var] in *. destruct v as [c zero one si bk|lk ld|e]; [| |done].
    - pose proof (obj_branch _ _ _ _ _ _ _ Hc) as Hsi.
      destruct (node_desc_spec cks si bk Hn Hks Hne Hsi) as (mi & -> & Hcd & _). cbn [lift mbind prog_bind pbind].
      rewrite Hcd. cbn [lift mbind prog_bind pbind].
      destruct (node_desc cks si bk) as [|d0 ds0] eqn:Hds; [by apply IH|]. rewrite <- Hds.
      destruct (node_split_app (node_desc cks si bk) si Hsi) as [-> Happ]. cbn [lift mbind prog_bind pbind].
      assert (ksorted (node_desc cks si bk)) as HsD by (by apply node_desc_sorted).
      rewrite <- Happ in HsD. apply StronglySorted_app_inv in HsD as (Hsz & Hso & _).
      apply calm_bind. eapply calm_mono; [|by apply push_calm]. intros q1 Hq1. cbn beta.
      apply calm_bind. eapply calm_mono; [|by apply push_calm]. intros q2 Hq2. by apply IH.
    - cbn [get_node mbind prog_bind pbind calm]. intros [nd|] _; [|done]. destruct (var nd); try done.
      apply calm_bind, calm_lift; [apply (dec_no_panic _ _ Hcodec)|]. intros v _.
      pose proof (binary_search_spec keys lk Hkeys) as Hbs.
      destruct (binary_search keys lk) as [i|]; [|by apply IH].
      unfold index. rewrite Hbs. cbn [lift mbind prog_bind pbind]. by apply IH.
  Qed.
  Lemma sort_ne ks : ks ≠ [] → sort_keys ks ≠ [].
  Proof using.
    intros Hne Hnil. apply Hne. apply length_zero_iff_nil. rewrite <- sort_keys_length. by rewrite Hnil.
  Qed.
  Lemma get_calm D r ks : calm (get dec D r ks) (λ _, True).
  Proof using Hn Hcodec.
    destruct (decide (ks = [])) as [->|Hne]; [done|].
    assert (∀ A (a b : A), match ks with [] => a | _ => b end = b) as Hm by (by destruct ks).
    unfold get. rewrite Hm. clear Hm. cbn [get_node mbind prog_bind pbind calm]. intros [nd|] Ho; [|done].
    apply get_loop_calm; [apply sort_keys_sorted|]. constructor; [|done].
    split_and!; [by apply Ho|apply sort_keys_sorted|by apply sort_ne].
  Qed.
  Lemma verify_calm r k v p : calm (verify_inclusion_proof (n := n) enc r k v p) (λ _, True).
  Proof using Hcodec.
    destruct p as [|p0 [|p1 items]]; [done|done|]. unfold verify_inclusion_proof.
    apply calm_bind, calm_lift; [apply (enc_no_panic _ _ Hcodec)|]. intros e _.
    cbn [hash mbind prog_bind pbind calm]. intros _. destruct (decide _); [|done].
    cbn [hash mbind prog_bind pbind calm]. intros _. destruct (decide _); [|done].
    apply calm_bind. eapply (calm_mono _ (λ _, True)); [intros cur _; by destruct (decide _)|].
    generalize (H (leaf_in k (H (data_in k e)))). induction items as [|[h b] items IH]; intros cur; [done|].
    cbn [verify_fold]. cbn [hash mbind prog_bind pbind calm]. intros _. apply IH.
  Qed.

  (** Insertions *)
  Lemma insert_leaves_calm vm ks : (∀ k, k ∈ ks → is_Some (vm !! k)) →
    calm (insert_leaves enc vm ks) (λ ls, Forall (ref_ok H S) (zip_with (λ l k, TRef k l 1 1) ls ks)).
  Proof using Hcodec.
    induction ks as [|k ks IH]; intros Hk; [cbn; by constructor|]. cbn [insert_leaves]. apply calm_bind.
    unfold insert_leaves_one. destruct (Hk k) as [v ->]; [by left|].
    apply calm_bind, calm_lift; [apply (enc_no_panic _ _ Hcodec)|]. intros e _.
    cbn [hash get_node db_insert mbind prog_bind pbind mret prog_ret calm]. intros HS1 HS2 od _ ol _.
    apply calm_bind. eapply calm_mono; [|apply IH; intros k' ?; apply Hk; by right]. intros ls Hls. cbn.
    constructor; [|done]. exists (TLeaf k e). split; [done|]. split; [done|]. by repeat constructor.
  Qed.
  Lemma insert_leaf_calm (l : arr n) : calm (insert_leaf l) (λ _, True).
  Proof using. unfold insert_leaf. cbn. by intros [nd|] _. Qed.
  Definition part_ok (r : tref n + cell (n := n)) : Prop := match r with inl r => ref_ok H S r | inr c => kcell c end.
  Lemma split_nodes_calm d b ks : ksorted ks → calm (split_nodes (n := n) d b ks) part_ok.
  Proof using.
    intros Hk. unfold split_nodes. cbn [get_node mbind prog_bind pbind calm]. intros [[rf v]|] Ho; [|done].
    specialize (Ho _ eq_refl). destruct ks as [|k ks].
    - cbn [var]. destruct v; cbn [db_insert mbind prog_bind pbind calm mret prog_ret part_ok]; [|..|done].
      + by eapply obj_branch_ref.
      + by eapply obj_leaf_ref.
    - by split_and!.
  Qed.
  Lemma push_split_ok r acc q : part_ok r → Forall (ref_ok H S) acc → Forall kcell q →
    Forall (ref_ok H S) (push_split r acc q).1 ∧ Forall kcell (push_split r acc q).2.
  Proof using.
    intros Hr Ha Hq. destruct r; cbn in *; split; try done.
    - apply Forall_app. split; [done|by apply Forall_singleton].
    - by constructor.
  Qed.
  Lemma traverse_calm D fuel km acc q : Forall kcell q → Forall (ref_ok H S) acc →
    calm (traverse_tree D fuel km acc q) (Forall (ref_ok H S)).
  Proof using Hn.
    revert acc q. induction fuel as [|fuel IH]; intros acc [|c q] Hq Ha; try done.
    apply Forall_cons in Hq as [(Hc & Hks & Hne) Hq]. cbn [traverse_tree].
    destruct (D <? cdepth c); [done|].
    destruct c as [lc cks [rf v] dp]. cbn [cloc cnode ckeys cdepth var refs] in *. destruct v as [c zero one si bk|lk ld|e]; [| |done].
    - pose proof (obj_branch _ _ _ _ _ _ _ Hc) as Hsi.
      destruct (node_desc_spec cks si bk Hn Hks Hne Hsi) as (mi & -> & Hcd & Hge & _). cbn [lift mbind prog_bind pbind].
      set (ds := node_desc cks si bk) in *.
      assert ((if mi <? si then lift (check_descendants cks si bk mi) else mret cks) = Ret ds :> prog n _) as ->.
      { destruct (Nat.ltb_spec mi si); [by rewrite Hcd|]. by rewrite Hge. }
      cbn [mbind prog_bind pbind].
      destruct ((mi <? si) && (length ds =? 0)).
      { cbn [db_insert mbind prog_bind pbind calm]. apply IH; [done|]. apply Forall_app. split; [done|].
        apply Forall_singleton. by eapply obj_branch_ref. }
      destruct (node_split_app ds si Hsi) as [-> Happ]. cbn [lift mbind prog_bind pbind].
      assert (ksorted ds) as HsD by (by apply node_desc_sorted).
      rewrite <- Happ in HsD. apply StronglySorted_app_inv in HsD as (Hsz & Hso & _).
      apply calm_bind. eapply calm_mono; [|by apply split_nodes_calm]. intros r1 Hr1. cbn beta.
      destruct (push_split_ok r1 acc q Hr1 Ha Hq) as [Ha1 Hq1]. destruct (push_split r1 acc q) as [acc1 q1]. cbn [fst snd] in *.
      apply calm_bind. eapply calm_mono; [|by apply split_nodes_calm]. intros r0 Hr0. cbn beta.
      destruct (push_split_ok r0 acc1 q1 Hr0 Ha1 Hq1) as [Ha2 Hq2]. destruct (push_split r0 acc1 q1) as [acc2 q2]. cbn [fst snd] in *.
      by apply IH.
    - destruct (km !! lk) as [l|].
      + destruct (decide (l = lc)); [|by apply IH]. apply calm_bind. eapply calm_mono; [|apply insert_leaf_calm].
        intros _ _. by apply IH.
      + apply calm_bind. eapply calm_mono; [|apply insert_leaf_calm]. intros _ _. apply IH; [done|].
        apply Forall_app. split; [done|]. apply Forall_singleton. by eapply obj_leaf_ref.
  Qed.
  Lemma wp_calm {A} (J : db n → Prop) (R : arr n → node n → Prop) (p : prog n A) Q E (s : db n) :
    emits H S R p → wp (hash_db n) H S J p Q E s → calm p (λ _, True).
  Proof using.
    revert s. induction p as [a|e| | |cs k IH|l k IH|l nd k IH|l k IH|k IH]; intros s; cbn; try done.
    - intros He Hw HS. eapply IH; [by apply He|by apply Hw].
    - intros [_ He] [_ Hw]. by eapply IH.
    - intros He [_ Hw]. by eapply IH.
  Qed.
  Lemma create_tree_calm rs : Forall (ref_ok H S) rs → calm (create_tree rs) (λ _, True).
  Proof using Hn Hinj.
    intros (ts & -> & Hts)%refs_ok. destruct ts as [|t0 ts]; [done|].
    destruct (grow_list Hn H S Hinj (t0 :: ts) ∅ (proper_empty H S) Hts) as (m & _ & Hp & Hst).
    eapply (wp_calm (Jp (proper H S) (hash_db n) ∅) (branch_put H S)); [apply create_tree_emits|].
    apply (create_tree_wp Hn H S no_floor (λ _ _, True) (λ _, True) (λ _ _, True) (proper H S)
        (proper_keeps H S Hinj) (hash_db n) ∅ (t0 :: ts) m m []); [|done|].
    - split_and!; cbn [fst snd]; try done.
      + split_and!; try done. apply cle_refl.
      + apply Forall_forall. intros t Ht. rewrite Forall_forall in Hst, Hts.
        destruct (Hts t Ht). split_and!; auto.
    - intros ts0 _ _ x bs1 l r bs2 _ _ _ _ _ _. lia.
  Qed.
  Lemma insert_sorted_calm D prev ks vm : ks ≠ [] → ksorted ks → (∀ k, k ∈ ks → is_Some (vm !! k)) →
    calm (insert_sorted enc D prev ks vm) (λ _, True).
  Proof using Hn Hinj Hcodec.
    intros Hne Hks Hvm. unfold insert_sorted. apply calm_bind. eapply calm_mono; [|by apply insert_leaves_calm].
    intros ls Hls. cbn beta. apply calm_bind. eapply (calm_mono _ (Forall (ref_ok H S))).
    { intros ps Hps. apply create_tree_calm. by apply Forall_app. }
    destruct prev as [root|]; [|constructor]. unfold generate_treerefs. cbn [get_node mbind prog_bind pbind calm].
    intros [nd|] Ho; [|done]. apply traverse_calm; [|constructor]. constructor; [|done].
    split_and!; [by apply Ho|done|done].
  Qed.
  Lemma exec_calm (c : call n V) : calm (exec enc dec c) (λ _, True).
  Proof using Hn Hinj Hcodec.
    destruct c as [D prev ks vs|D prev k v|D root ks|D root k|D root k|root k v proof]; cbn [exec].
    - apply calm_bind. eapply (calm_mono _ (λ _, True)); [done|].
      unfold insert. destruct (Nat.eqb_spec (length ks) (length vs)) as [Hl|]; [|done]. cbn [negb].
      destruct (Nat.eqb_spec (length ks) 0) as [|Hk0]; [done|]. cbn [orb].
      destruct (length vs =? 0); [done|]. apply insert_sorted_calm; [|apply sort_keys_sorted|].
      + apply sort_ne. intros ->. done.
      + intros k Hk. rewrite elem_of_sort_keys in Hk. by apply value_map_some.
    - apply calm_bind. eapply (calm_mono _ (λ _, True)); [done|]. apply insert_sorted_calm; [done|repeat constructor|].
      intros k' ->%elem_of_list_singleton. rewrite lookup_singleton. by eexists.
    - apply calm_bind. eapply (calm_mono _ (λ _, True)); [done|]. apply get_calm.
    - apply calm_bind. eapply (calm_mono _ (λ _, True)); [done|]. apply get_one_calm.
    - apply calm_bind. eapply (calm_mono _ (λ _, True)); [done|]. apply gen_proof_calm.
    - apply verify_calm.
  Qed.
End Calm.

Section CalmWild.
  Context {n : nat} (Hn : 0 < n) (B : backend n) {HB : BackendOk B} (H : list bytes → arr n).
  Context {V : Type} (enc : V → res bytes) (dec : bytes → res V) (Hcodec : codec_ok enc dec).
  Lemma exec_no_fuel (c : call n V) st : out B H (exec enc dec c) st ≠ RFuel.
  Proof using Hn.
    destruct (calls_terminate B H enc dec st) as (H1 & H2 & H3 & H4).
    assert (∀ A (p : prog n A), out B H p st ≠ RFuel → out B H (p ;; mret tt) st ≠ RFuel) as Hg.
    { intros A p. unfold out. rewrite run_bind. by destruct (run B H p st) as [[[a|e| |] s'] lg]. }
    destruct c as [D prev ks vs|D prev k v|D root ks|D root k|D root k|root k v proof]; cbn [exec].
    - apply Hg, H4.
    - apply Hg. rewrite (insert_one_insert enc). apply H4.
    - apply Hg, H1.
    - apply Hg, H2.
    - apply Hg, H3.
    - destruct proof as [|p0 [|p1 items]]; [done|done|]. unfold verify_inclusion_proof, out.
      destruct (enc v) as [e| |]; [|done|done]. cbn [lift hash mbind prog_bind pbind run].
      destruct (decide _); [|done]. cbn [hash mbind prog_bind pbind run].
      destruct (decide _); [|done]. rewrite run_bind.
      assert (∀ cur, ∃ c' lg, run B H (verify_fold cur items) st = (ROk c', st, lg)) as Hv.
      { induction items as [|[h b] items IH]; intros cur; cbn; [eauto|].
        destruct (IH (H (if b then branch_in cur h else branch_in h cur))) as (c' & lg & ->). eauto. }
      destruct (Hv (H (leaf_in k (H (data_in k e))))) as (c' & lg & ->). by destruct (decide (root = c')).
  Qed.
  Theorem wild_no_panic st lg c : wild B H enc dec st lg → no_collision H (lg ++ hlog B H (exec enc dec c) st) →
    out B H (exec enc dec c) st = ROk tt ∨ ∃ er, out B H (exec enc dec c) st = RErr er.
  Proof using Hn Hcodec HB.
    intros Hw Hc. set (L := lg ++ _) in *.
    assert (wgood B H L st) as HG by (apply (wild_inv Hn B H enc dec L st lg Hw Hc); intros x ?; apply elem_of_app; by left).
    pose proof (exec_no_fuel c st) as Hf.
    assert (out B H (exec enc dec c) st ≠ RPanic) as Hp.
    { eapply (calm_out H (λ x, x ∈ L)); [by apply (exec_calm Hn H _ Hc enc dec Hcodec)| |].
      - intros x ?. apply elem_of_app. by right.
      - eapply Forall_impl; [apply (wgood_call Hn B H enc dec L c st Hc); [|done]|].
        + intros x ?. apply elem_of_app. by right.
        + intros s. apply wgood_vis. }
    destruct (out B H (exec enc dec c) st) as [[]|er| |]; try done; eauto.
  Qed.
  (** The same when a database operation fails. *)
  Theorem wild_fault_no_panic st lg c i : wild B H enc dec st lg → no_collision H (lg ++ hlog B H (exec enc dec c) st) →
    (run_fault B H i (exec enc dec c) st).1 = ROk tt ∨ ∃ er, (run_fault B H i (exec enc dec c) st).1 = RErr er.
  Proof using Hn Hcodec HB.
    intros Hw Hc. destruct (fault_outcome B H (exec enc dec c) i st) as [->| ->]; [eauto|]. by eapply wild_no_panic.
  Qed.
End CalmWild.
