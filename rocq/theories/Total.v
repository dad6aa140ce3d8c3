(** * Termination on arbitrary databases *)
From Coq Require Import Strings.Byte NArith.
From stdpp Require Import prelude countable gmap sorting strings.
From Verif Require Import Model Bits Spec Util Trie Store Logic Build Evol Route Reads Insert Update Safe Get Hist Claims.

Local Open Scope nat_scope.

(** ** A logic for bounds
    [tw p c Q]: whatever the hash function and the database answer, [p] never
    exhausts a loop bound, makes at most [c] fetches, and on a normal return of
    [a] with [c'] fetches left [Q a c'] holds. *)
Fixpoint tw {n A} (p : prog n A) (c : nat) (Q : A → nat → Prop) : Prop :=
  match p with
  | Ret a => Q a c
  | Throw e => True
  | Panic => True
  | Fuel => False
  | Hash cs k => ∀ h, tw (k h) c Q
  | Get l k => match c with 0 => False | S c' => ∀ o, tw (k o) c' Q end
  | Put l nd k => tw k c Q
  | Del l k => tw k c Q
  | Flush k => tw k c Q
  end.

Section TW.
  Context {n : nat}.
  Lemma tw_bind {A C} (p : prog n A) (f : A → prog n C) c Q :
    tw p c (λ a c', tw (f a) c' Q) → tw (p ≫= f) c Q.
  Proof.
    revert c. induction p as [a|e| | |cs k IH|l k IH|l nd k IH|l k IH|k IH]; intros c; simpl; auto.
    - intros Hk h. by apply IH.
    - destruct c as [|c]; [done|]. intros Hk o. by apply IH.
  Qed.
  Lemma tw_mono {A} (p : prog n A) c (Q Q' : A → nat → Prop) : (∀ a c', Q a c' → Q' a c') → tw p c Q → tw p c Q'.
  Proof.
    intros HQ. revert c. induction p as [a|e| | |cs k IH|l k IH|l nd k IH|l k IH|k IH]; intros c; simpl; auto.
    destruct c as [|c]; [done|]. intros Hk o. by apply IH.
  Qed.
  Lemma tw_weak {A} (p : prog n A) c c' : c ≤ c' → tw p c (λ _ _, True) → tw p c' (λ _ _, True).
  Proof.
    revert c c'. induction p as [a|e| | |cs k IH|l k IH|l nd k IH|l k IH|k IH]; intros c c' Hc; simpl; eauto.
    destruct c as [|c]; [done|]. destruct c' as [|c']; [lia|]. intros Hk o. eapply IH; [|apply Hk]. lia.
  Qed.
  Lemma tw_lift {A} (r : res A) c (Q : A → nat → Prop) : (∀ a, r = Ok a → Q a c) → tw (n := n) (lift r) c Q.
  Proof. intros Hr. destruct r; simpl; auto. Qed.
  Lemma tw_run {A} (p : prog n A) c Q (B : backend n) H st : tw p c Q →
    out B H p st ≠ RFuel ∧ fetches B H p st ≤ c.
  Proof.
    unfold out. revert c st.
    induction p as [a|e| | |cs k IH|l k IH|l nd k IH|l k IH|k IH]; intros c st; simpl; auto; try (split; [done|lia]).
    - intros Hk. specialize (IH (H cs) c st (Hk _)). destruct (run B H (k (H cs)) st) as [[o s'] lg]. done.
    - destruct c as [|c]; [done|]. intros Hk. destruct (IH (b_vis B st !! l) c st (Hk _)). split; [done|lia].
  Qed.
End TW.

Lemma slice_length {A} (xs : list A) i j ys : slice xs i j = Ok ys → length ys ≤ length xs.
Proof.
  unfold slice. destruct (_ && _); [|done]. intros [= <-]. rewrite take_length, drop_length. lia.
Qed.
Lemma check_descendants_length {n} (ks : list (arr n)) si bk m ds :
  check_descendants ks si bk m = Ok ds → length ds ≤ length ks.
Proof.
  unfold check_descendants. destruct (descendant_range _ _ _ _ _ _ _ _); simpl; [|done|done].
  apply slice_length.
Qed.
Lemma split_pairs_length {n} (ks : list (arr n)) b zo :
  split_pairs ks b = Ok zo → length zo.1 + length zo.2 = length ks ∨ (ks = [] ∧ zo = ([], [])).
Proof.
  unfold split_pairs. destruct (head ks) as [f|] eqn:Hh.
  2:{ destruct ks; [|done]. intros [= <-]. by right. }
  destruct (last ks) as [la|] eqn:Hl.
  2:{ apply last_None in Hl. subst. intros [= <-]. by right. }
  destruct (choose_zero la b) as [[]| |]; simpl; try done.
  { intros [= <-]. left. simpl. lia. }
  destruct (choose_zero f b) as [[]| |]; simpl; try done; intros [= <-]; left; simpl; [|lia].
  rewrite take_length, drop_length. lia.
Qed.

Section Reads.
  Context {n : nat} {V : Type} (enc : V → res bytes) (dec : bytes → res V) (D : nat).
  Notation cell := (@cell n).
  Notation measure := (measure (n := n) D).

  Definition cok (c : cell) : Prop := ckeys c ≠ [] ∧ cdepth c ≤ D + 1.
  Lemma measure_cons c q : measure (c :: q) = length (ckeys c) * (D + 2 - cdepth c) + measure q.
  Proof. done. Qed.
  Lemma keys_pos (c : cell) : cok c → 0 < length (ckeys c).
  Proof. intros [Hk _]. destruct (ckeys c); [done|simpl; lia]. Qed.

  Lemma push_cell_tw q d l ks c (Q : list cell → nat → Prop) : Forall cok q → d ≤ D →
    (∀ q', Forall cok q' → measure q' ≤ length ks * (D + 1 - d) + measure q → Q q' c) →
    tw (push_cell_if_node q d l ks) (S c) Q.
  Proof.
    intros Hq Hd HQ. unfold push_cell_if_node. apply tw_bind. cbn [get_node tw]. intros [nd|].
    - destruct ks as [|k ks]; cbn [mret prog_ret tw].
      + apply HQ; [done|]. cbn [length]. lia.
      + apply HQ.
        * constructor; [|done]. split; simpl; [done|lia].
        * rewrite measure_cons. simpl ckeys. simpl cdepth.
          replace (D + 2 - (d + 1)) with (D + 1 - d) by lia. done.
    - apply HQ; [done|apply Nat.le_add_l].
  Qed.
  Lemma get_loop_tw fuel keys lm q : Forall cok q → measure q ≤ fuel →
    tw (get_loop dec D fuel keys lm q) (2 * measure q) (λ _ _, True).
  Proof.
    revert lm q. induction fuel as [|fuel IH]; intros lm q Hq Hm.
    { destruct q as [|c q]; [done|]. exfalso. apply Forall_cons in Hq as [Hc _].
      pose proof (keys_pos c Hc). destruct Hc as [_ Hc]. rewrite measure_cons in Hm. nia. }
    destruct q as [|c q]; [done|]. cbn [get_loop].
    apply Forall_cons in Hq as [Hc Hq]. pose proof (keys_pos c Hc) as Hpos.
    rewrite measure_cons in *.
    destruct (Nat.ltb_spec D (cdepth c)) as [|Hd]; [done|].
    assert (length (ckeys c) * (D + 2 - cdepth c) = length (ckeys c) + length (ckeys c) * (D + 1 - cdepth c)) as Heq.
    { replace (D + 2 - cdepth c) with (1 + (D + 1 - cdepth c)) by lia. lia. }
    rewrite Heq in *. clear Heq. remember (length (ckeys c) * (D + 1 - cdepth c)) as X eqn:HX.
    remember (measure q) as Mq eqn:HMq. remember (length (ckeys c)) as len eqn:Hlen.
    assert (∀ q' cc lm', Forall cok q' → measure q' ≤ X + Mq → 2 * (X + Mq) ≤ cc →
      tw (get_loop dec D fuel keys lm' q') cc (λ _ _, True)) as Hnext.
    { intros q' cc lm' Hq' Hm' Hcc. eapply tw_weak; [|apply IH; [done|lia]]. lia. }
    assert (∃ cc, 2 * (len + X + Mq) = S (S cc) ∧ 2 * (X + Mq) ≤ cc) as (cc & -> & Hcc).
    { exists (2 * (len + X + Mq) - 2). lia. }
    destruct (var (cnode c)) as [cnt zero one si bk|lk ld|e]; [| |done].
    - apply tw_bind, tw_lift. intros m _. apply tw_bind, tw_lift. intros ds Hds.
      apply check_descendants_length in Hds.
      destruct ds as [|d0 ds]; [apply Hnext; [done|lia|lia]|].
      apply tw_bind, tw_lift. intros zo Hzo.
      destruct (split_pairs_length _ _ _ Hzo) as [Hzl|[? _]]; [|done].
      apply tw_bind. apply push_cell_tw; [done|done|]. intros q1 Hq1 Hm1.
      apply tw_bind. apply push_cell_tw; [done|done|]. intros q2 Hq2 Hm2.
      apply Hnext; [done| |done].
      assert (length zo.1 * (D + 1 - cdepth c) + length zo.2 * (D + 1 - cdepth c) ≤ X); [|lia].
      rewrite HX, <- Nat.mul_add_distr_r. apply Nat.mul_le_mono_r. lia.
    - apply tw_bind.
      simpl. intros [nd|]; [|done]. destruct (var nd) as [| |e]; try done.
      apply tw_bind, tw_lift. intros v _. destruct (binary_search keys lk) as [i|].
      + apply tw_bind, tw_lift. intros k _. apply Hnext; [done|lia|lia].
      + apply Hnext; [done|lia|lia].
  Qed.
  Lemma get_tw root (ks : list (arr n)) :
    tw (get dec D root ks) (1 + 2 * (length ks * (D + 2))) (λ _ _, True).
  Proof.
    unfold get. destruct ks as [|k0 ks0]; [done|]. set (ks := k0 :: ks0).
    apply tw_bind. simpl. intros [nd|]; [|done].
    assert (sort_keys ks ≠ []) as Hne.
    { intros Hnil. assert (length (sort_keys ks) = 0) as Hl by (by rewrite Hnil).
      rewrite sort_keys_length in Hl. done. }
    eapply tw_weak; [|apply get_loop_tw].
    - rewrite measure_cons. cbn [ckeys cdepth measure sum_list_with]. rewrite sort_keys_length.
      simpl length. lia.
    - constructor; [|done]. split; [done|simpl; lia].
    - rewrite measure_cons. cbn [ckeys cdepth measure sum_list_with]. unfold traverse_fuel. simpl. lia.
  Qed.

  Lemma get_one_loop_tw fuel k d fl l : D + 2 ≤ fuel + d → d ≤ D + 1 →
    tw (get_one_loop (n := n) dec D fuel k d fl l) (D + 1 - d) (λ _ _, True).
  Proof.
    revert d fl l. induction fuel as [|fuel IH]; intros d fl l Hf Hd; [lia|]. cbn [get_one_loop].
    destruct (Nat.ltb_spec D d) as [|Hd']; [done|]. apply tw_bind.
    replace (D + 1 - d) with (S (D + 1 - (d + 1))) by lia. cbn [get_node tw]. intros [nd|]; [|done].
    destruct (var nd) as [cnt zero one si bk|lk ld|e].
    - destruct fl; [done|]. apply tw_bind, tw_lift. intros m _. apply tw_bind, tw_lift. intros ds _.
      destruct ds; [done|]. apply tw_bind, tw_lift. intros z _. apply IH; lia.
    - destruct fl; [done|]. destruct (decide (lk = k)); [|done]. apply IH; lia.
    - destruct fl; [|done]. apply tw_bind, tw_lift. done.
  Qed.
  Lemma get_one_tw root (k : arr n) : tw (get_one dec D root k) (D + 1) (λ _ _, True).
  Proof.
    unfold get_one. eapply tw_weak; [|apply get_one_loop_tw; lia]. lia.
  Qed.
  Lemma gen_proof_loop_tw fuel (k : arr n) d fl acc l : D + 2 ≤ fuel + d → d ≤ D + 1 →
    tw (gen_proof_loop D fuel k d fl acc l) (D + 1 - d) (λ _ _, True).
  Proof.
    revert d fl acc l. induction fuel as [|fuel IH]; intros d fl acc l Hf Hd; [lia|]. cbn [gen_proof_loop].
    destruct (Nat.ltb_spec D d) as [|Hd']; [done|]. apply tw_bind.
    replace (D + 1 - d) with (S (D + 1 - (d + 1))) by lia. cbn [get_node tw]. intros [nd|]; [|done].
    destruct (var nd) as [cnt zero one si bk|lk ld|e].
    - destruct fl; [done|]. apply tw_bind, tw_lift. intros m _. apply tw_bind, tw_lift. intros ds _.
      destruct ds; [done|]. apply tw_bind, tw_lift. intros [|] _; apply IH; lia.
    - destruct fl; [done|]. destruct (decide (lk = k)); [|done]. apply tw_bind. cbn [hash tw].
      intros h. apply IH; lia.
    - destruct fl; [|done]. done.
  Qed.
  Lemma gen_proof_tw root (k : arr n) : tw (generate_inclusion_proof D root k) (D + 1) (λ _ _, True).
  Proof. unfold generate_inclusion_proof. eapply tw_weak; [|apply gen_proof_loop_tw; lia]. lia. Qed.

  (** ** Insertion *)
  Lemma insert_leaves_tw vm (ks : list (arr n)) c (Q : list (arr n) → nat → Prop) :
    (∀ ls, Q ls c) → tw (insert_leaves enc vm ks) (2 * length ks + c) Q.
  Proof.
    revert c Q. induction ks as [|k ks IH]; intros c Q HQ; [by apply HQ|].
    cbn [insert_leaves]. apply tw_bind. unfold insert_leaves_one.
    destruct (vm !! k) as [v|]; [|done]. apply tw_bind, tw_lift. intros e _.
    replace (2 * length (k :: ks) + c) with (S (S (2 * length ks + c))) by (simpl; lia).
    cbn [mbind prog_bind pbind hash get_node db_insert tw mret prog_ret]. intros h1 h2 _ _.
    change (tw (insert_leaves enc vm ks ≫= (λ ls, mret (h2 :: ls))) (2 * length ks + c) Q).
    apply tw_bind. apply IH. intros ls. apply HQ.
  Qed.
  Lemma insert_leaf_tw l c (Q : unit → nat → Prop) : Q tt c → tw (n := n) (insert_leaf l) (S c) Q.
  Proof. intros HQ. unfold insert_leaf. cbn. intros [nd|]; done. Qed.
  Lemma split_nodes_tw d b (ks : list (arr n)) c (Q : tref n + cell → nat → Prop) :
    d ≤ D →
    (∀ r, (∀ acc q acc' q', Forall cok q → push_split r acc q = (acc', q') →
             Forall cok q' ∧ measure q' ≤ length ks * (D + 1 - d) + measure q) → Q r c) →
    tw (split_nodes d b ks) (S c) Q.
  Proof.
    intros Hd HQ. unfold split_nodes. apply tw_bind. cbn [get_node tw]. intros [nd|]; [|done].
    destruct ks as [|k ks].
    - destruct (var nd); [| |done]; apply tw_bind; cbn [db_insert tw]; apply HQ;
        intros acc q acc' q' Hq [= <- <-]; (split; [done|apply Nat.le_add_l]).
    - apply HQ. intros acc q acc' q' Hq [= <- <-]. split.
      + constructor; [|done]. split; simpl; [done|lia].
      + rewrite measure_cons. simpl ckeys. simpl cdepth.
        replace (D + 2 - (d + 1)) with (D + 1 - d) by lia. done.
  Qed.
  Lemma traverse_tw fuel km acc q : Forall cok q → measure q ≤ fuel →
    tw (traverse_tree D fuel km acc q) (2 * measure q) (λ _ _, True).
  Proof.
    revert acc q. induction fuel as [|fuel IH]; intros acc q Hq Hm.
    { destruct q as [|c q]; [done|]. exfalso. apply Forall_cons in Hq as [Hc _].
      pose proof (keys_pos c Hc). destruct Hc as [_ Hc]. rewrite measure_cons in Hm. nia. }
    destruct q as [|c q]; [done|]. cbn [traverse_tree].
    apply Forall_cons in Hq as [Hc Hq]. pose proof (keys_pos c Hc) as Hpos.
    rewrite measure_cons in *.
    destruct (Nat.ltb_spec D (cdepth c)) as [|Hd]; [done|].
    assert (length (ckeys c) * (D + 2 - cdepth c) = length (ckeys c) + length (ckeys c) * (D + 1 - cdepth c)) as Heq.
    { replace (D + 2 - cdepth c) with (1 + (D + 1 - cdepth c)) by lia. lia. }
    rewrite Heq in *. clear Heq. remember (length (ckeys c) * (D + 1 - cdepth c)) as X eqn:HX.
    remember (measure q) as Mq eqn:HMq. remember (length (ckeys c)) as len eqn:Hlen.
    assert (∀ q' cc acc', Forall cok q' → measure q' ≤ X + Mq → 2 * (X + Mq) ≤ cc →
      tw (traverse_tree D fuel km acc' q') cc (λ _ _, True)) as Hnext.
    { intros q' cc acc' Hq' Hm' Hcc. eapply tw_weak; [|apply IH; [done|lia]]. lia. }
    assert (∃ cc, 2 * (len + X + Mq) = S (S cc) ∧ 2 * (X + Mq) ≤ cc) as (cc & -> & Hcc).
    { exists (2 * (len + X + Mq) - 2). lia. }
    destruct (var (cnode c)) as [cnt zero one si bk|lk ld|e]; [| |done].
    - apply tw_bind, tw_lift. intros m _. apply tw_bind.
      assert (tw (n := n) (if m <? si then lift (check_descendants (ckeys c) si bk m) else mret (ckeys c)) (S (S cc))
        (λ ds cc', cc' = S (S cc) ∧ length ds ≤ len ∧ (ds = [] → m < si))) as Hds.
      { destruct (Nat.ltb_spec m si).
        - apply tw_lift. intros ds Hds%check_descendants_length. split_and!; [done|lia|done].
        - split_and!; [done|lia|]. destruct Hc as [Hc _]. done. }
      eapply tw_mono; [|exact Hds]. clear Hds. cbn beta. intros ds cc' (-> & Hds & Hnil).
      destruct ((m <? si) && (length ds =? 0)) eqn:Hb.
      { apply tw_bind. cbn [db_insert tw]. apply Hnext; [done|lia|lia]. }
      apply tw_bind, tw_lift. intros zo Hzo.
      destruct (split_pairs_length _ _ _ Hzo) as [Hzl|[-> _]].
      2:{ exfalso. apply andb_false_iff in Hb as [Hb|Hb]; [|done].
          apply Nat.ltb_ge in Hb. specialize (Hnil eq_refl). lia. }
      apply tw_bind. apply split_nodes_tw; [done|]. intros r1 Hr1.
      destruct (push_split r1 acc q) as [acc1 q1] eqn:Hp1.
      destruct (Hr1 acc q acc1 q1 Hq Hp1) as [Hq1 Hm1].
      apply tw_bind. apply split_nodes_tw; [done|]. intros r0 Hr0.
      destruct (push_split r0 acc1 q1) as [acc2 q2] eqn:Hp2.
      destruct (Hr0 acc1 q1 acc2 q2 Hq1 Hp2) as [Hq2 Hm2].
      apply Hnext; [done| |done].
      assert (length zo.1 * (D + 1 - cdepth c) + length zo.2 * (D + 1 - cdepth c) ≤ X); [|lia].
      rewrite HX, <- Nat.mul_add_distr_r. apply Nat.mul_le_mono_r. lia.
    - destruct (km !! lk) as [lc|].
      + destruct (decide (lc = cloc c)); [|apply Hnext; [done|lia|lia]].
        apply tw_bind, insert_leaf_tw, Hnext; [done|lia|lia].
      + apply tw_bind, insert_leaf_tw, Hnext; [done|lia|lia].
  Qed.
  Lemma treerefs_tw root (ks : list (arr n)) km : ks ≠ [] →
    tw (generate_treerefs D root ks km) (1 + 2 * (length ks * (D + 2))) (λ _ _, True).
  Proof.
    intros Hne. unfold generate_treerefs. apply tw_bind. cbn [get_node tw plus]. intros [nd|]; [|done].
    eapply tw_weak; [|apply traverse_tw].
    - rewrite measure_cons. cbn [ckeys cdepth measure sum_list_with]. lia.
    - constructor; [|done]. split; [done|simpl; lia].
    - rewrite measure_cons. cbn [ckeys cdepth measure sum_list_with]. unfold traverse_fuel. lia.
  Qed.
  Lemma merge_level_tw rs root level c : tw (n := n) (merge_level rs root level) c (λ _ _, True).
  Proof.
    revert rs root. induction level as [|[[si p] nx] level IH]; intros rs root; [done|].
    cbn [merge_level]. apply tw_bind. unfold merge_one.
    apply tw_bind, tw_lift. intros rp _. apply tw_bind, tw_lift. intros rn _.
    apply tw_bind, tw_lift. intros la _. apply tw_bind, tw_lift. intros rl _.
    cbn [mbind prog_bind pbind hash db_insert tw mret prog_ret]. intros h. apply IH.
  Qed.
  Lemma merge_all_tw rs root levels c : tw (n := n) (merge_all rs root levels) c (λ _ _, True).
  Proof.
    revert rs root c. induction levels as [|level levels IH]; intros rs root c; [done|].
    cbn [merge_all]. apply tw_bind. unfold merge_nodes. apply tw_bind.
    assert (∀ (p : prog n (list (tref n) * arr n)) c (Q : _ → nat → Prop), (∀ a c', Q a c') →
      tw p c (λ _ _, True) → tw p c Q) as Hg by (intros; by eapply tw_mono).
    apply Hg; [|apply merge_level_tw]. intros a c'. apply tw_bind. cbn [batch_write tw]. apply IH.
  Qed.
  Lemma create_tree_tw (rs : list (tref n)) c : tw (create_tree rs) c (λ _ _, True).
  Proof.
    unfold create_tree. destruct rs as [|r0 [|r1 rs]]; [done|done|].
    apply tw_bind, tw_lift. intros items _. apply tw_bind.
    eapply tw_mono; [|apply merge_all_tw]. intros [root|] c' _; done.
  Qed.
  Lemma insert_sorted_tw prev (ks : list (arr n)) vm : ks ≠ [] →
    tw (insert_sorted enc D prev ks vm) (2 * length ks + (1 + 2 * (length ks * (D + 2)))) (λ _ _, True).
  Proof.
    intros Hne. unfold insert_sorted. apply tw_bind, insert_leaves_tw. intros ls. apply tw_bind.
    destruct prev as [root|].
    - eapply tw_mono; [|by apply treerefs_tw]. intros pn c' _. apply create_tree_tw.
    - apply create_tree_tw.
  Qed.
  Lemma insert_tw prev (ks : list (arr n)) vs :
    tw (insert enc D prev ks vs) (1 + 2 * length ks * (D + 3)) (λ _ _, True).
  Proof.
    unfold insert. destruct (length ks =? length vs); [|done]. cbn [negb].
    destruct (Nat.eqb_spec (length ks) 0) as [|Hne]; [done|]. destruct (length vs =? 0); [done|]. cbn [orb].
    eapply tw_weak; [|apply insert_sorted_tw].
    - rewrite sort_keys_length. lia.
    - intros Hnil. apply Hne. rewrite <- sort_keys_length, Hnil. done.
  Qed.
End Reads.

(** The search loop of [merge_nodes] never exhausts its bound: the position it
    looks at grows, so it leaves the array first. *)
Lemma lookahead_fuel {n} fuel (rs : list (tref n)) p c : length rs ≤ c + fuel →
  lookahead fuel rs p c ≠ Err "fuel".
Proof.
  revert c. induction fuel as [|fuel IH]; intros c Hl; cbn [lookahead]; unfold index.
  - rewrite (lookup_ge_None_2 rs) by lia. cbn. discriminate.
  - destruct (rs !! (p + c)) as [r|] eqn:Hr; [|done]. cbn [mbind res_bind].
    destruct (Nat.ltb_spec c (tcount r)); [|done]. apply IH. lia.
Qed.

(** C26: whatever the database contains. *)
Theorem calls_terminate {n V} (B : backend n) H (enc : V → res bytes) (dec : bytes → res V) st :
  (∀ D r ks, out B H (get dec D r ks) st ≠ RFuel ∧
     fetches B H (get dec D r ks) st ≤ 1 + 2 * length ks * (D + 2)) ∧
  (∀ D r k, out B H (get_one dec D r k) st ≠ RFuel ∧ fetches B H (get_one dec D r k) st ≤ D + 1) ∧
  (∀ D r k, out B H (generate_inclusion_proof D r k) st ≠ RFuel ∧
     fetches B H (generate_inclusion_proof D r k) st ≤ D + 1) ∧
  (∀ D prev ks vs, out B H (insert enc D prev ks vs) st ≠ RFuel ∧
     fetches B H (insert enc D prev ks vs) st ≤ 1 + 2 * length ks * (D + 3)).
Proof.
  split_and!; intros; eapply tw_run.
  - replace (2 * length ks * (D + 2)) with (2 * (length ks * (D + 2))) by lia. apply get_tw.
  - apply get_one_tw.
  - apply gen_proof_tw.
  - apply insert_tw.
Qed.

(** ** Removal *)
Section Remove.
  Context {n : nat} (B : backend n) {HB : BackendOk B} (H : list bytes → arr n).
  Implicit Types (st : b_st B) (l : arr n) (q : list (arr n)).

  Lemma size_put st l nd : is_Some (b_vis B st !! l) → size (b_vis B (b_put B st l nd)) ≤ size (b_vis B st).
  Proof.
    intros Hl. rewrite <- !(size_dom (D := gset (arr n))). apply subseteq_size.
    intros l' Hl'. apply elem_of_dom in Hl'. apply elem_of_dom.
    destruct (bdom_put _ _ _ _ Hl') as [->|]; done.
  Qed.
  Lemma size_del st l nd : b_vis B st !! l = Some nd → size (b_vis B st) = S (size (b_vis B (b_del B st l))).
  Proof.
    intros Hl. rewrite bvis_del, map_size_delete, Hl.
    assert (size (b_vis B st) ≠ 0); [|lia]. intros Hz. apply map_size_empty_inv in Hz.
    by rewrite Hz, lookup_empty in Hl.
  Qed.
  (** The loop stops within [|queue| + 3 * entries] pops. *)
  Lemma remove_loop_total fuel q st : length q + 3 * size (b_vis B st) ≤ fuel →
    out B H (remove_loop fuel q) st = ROk tt ∧
    fetches B H (remove_loop fuel q) st ≤ length q + 3 * size (b_vis B st).
  Proof.
    revert q st. induction fuel as [|fuel IH]; intros q st Hf.
    { destruct q as [|l q]; [split; [done|simpl; lia]|simpl in Hf; lia]. }
    destruct q as [|l q]; [split; [done|simpl; lia]|]. cbn [remove_loop length] in *.
    unfold out. cbn [mbind prog_bind pbind get_node run fetches].
    destruct (b_vis B st !! l) as [nd|] eqn:Hl.
    2:{ destruct (IH q st ltac:(lia)). split; [done|lia]. }
    destruct (refs nd - 1 =? 0).
    - pose proof (size_del st l nd Hl) as Hs.
      destruct (var nd) as [cnt zero one si bk|lk ld|e];
        cbn [mbind prog_bind pbind db_remove run fetches].
      + destruct (IH (q ++ [zero; one]) (b_del B st l)) as [H1 H2].
        { rewrite app_length. simpl. lia. }
        rewrite app_length in H2. simpl in H2. split; [done|lia].
      + destruct (IH (q ++ [ld]) (b_del B st l)) as [H1 H2].
        { rewrite app_length. simpl. lia. }
        rewrite app_length in H2. simpl in H2. split; [done|lia].
      + destruct (IH q (b_del B st l)) as [H1 H2]; [lia|]. split; [done|lia].
    - cbn [mbind prog_bind pbind db_insert run fetches].
      pose proof (size_put st l (Node (refs nd - 1) (var nd)) ltac:(by rewrite Hl)) as Hs.
      destruct (IH q (b_put B st l (Node (refs nd - 1) (var nd)))) as [H1 H2]; [lia|]. split; [done|lia].
  Qed.
  (** More fuel changes nothing. *)
  Lemma remove_loop_fuel fuel fuel' q st : length q + 3 * size (b_vis B st) ≤ fuel → fuel ≤ fuel' →
    run B H (remove_loop fuel' q) st = run B H (remove_loop fuel q) st.
  Proof.
    revert fuel' q st. induction fuel as [|fuel IH]; intros fuel' q st Hf Hle.
    { destruct q as [|l q]; [by destruct fuel'|simpl in Hf; lia]. }
    destruct fuel' as [|fuel']; [lia|].
    destruct q as [|l q]; [done|]. cbn [remove_loop length] in *.
    cbn [mbind prog_bind pbind get_node run].
    destruct (b_vis B st !! l) as [nd|] eqn:Hl; [|apply IH; lia].
    destruct (refs nd - 1 =? 0).
    - pose proof (size_del st l nd Hl) as Hs.
      destruct (var nd) as [cnt zero one si bk|lk ld|e];
        cbn [mbind prog_bind pbind db_remove run]; apply IH; rewrite ?app_length; simpl; lia.
    - cbn [mbind prog_bind pbind db_insert run].
      pose proof (size_put st l (Node (refs nd - 1) (var nd)) ltac:(by rewrite Hl)) as Hs.
      apply IH; lia.
  Qed.

  (** C22 *)
  Theorem remove_total st root :
    out B H (remove_prog B st root) st = ROk tt ∧
    fetches B H (remove_prog B st root) st ≤ 1 + 3 * size (b_vis B st) ∧
    (∀ fuel, 1 + 3 * size (b_vis B st) ≤ fuel →
       run B H (remove fuel root) st = run B H (remove_prog B st root) st) ∧
    (b_vis B st !! root = None → fin B H (remove_prog B st root) st = b_flush B st).
  Proof.
    unfold remove_prog, remove. split_and!.
    - apply remove_loop_total. simpl. lia.
    - apply remove_loop_total. simpl. lia.
    - intros fuel Hf. destruct (decide (fuel ≤ 3 * size (b_vis B st) + 2)).
      + symmetry. apply remove_loop_fuel; simpl; lia.
      + apply remove_loop_fuel; simpl; lia.
    - intros Hn. rewrite Nat.add_comm. unfold fin. cbn. by rewrite Hn.
  Qed.
End Remove.

(** ** Missing roots *)
Section Missing.
  Context {n : nat} (Hn : 0 < n) (B : backend n) {HB : BackendOk B} (H : list bytes → arr n).
  Context {V : Type} (enc : V → res bytes) (dec : bytes → res V) (Hcodec : codec_ok enc dec).
  Implicit Types (st : b_st B) (root : arr n).

  Lemma put_absent st l nd root : l ≠ root → b_vis B st !! root = None →
    b_vis B (b_put B st l nd) !! root = None.
  Proof.
    intros Hne Hr. apply eq_None_not_Some. intros Hs.
    destruct (bdom_put _ _ _ _ Hs) as [->|Hs']; [done|]. rewrite Hr in Hs'. by destruct Hs'.
  Qed.
  Lemma insert_leaves_absent vm (ks : list (arr n)) root st :
    (∀ k, k ∈ ks → is_Some (vm !! k)) → b_vis B st !! root = None →
    wp B H (λ x, H x ≠ root) (λ _, True) (insert_leaves enc vm ks)
      (λ _ st', b_vis B st' !! root = None) (λ _ _, True) st.
  Proof.
    revert st. induction ks as [|k ks IH]; intros st Hd Hr; [done|].
    cbn [insert_leaves]. apply wp_bind. unfold insert_leaves_one.
    destruct (Hd k ltac:(by left)) as [v ->]. apply wp_bind.
    pose proof (enc_no_panic _ _ Hcodec v). destruct (enc v) as [e|er|]; [|done|done].
    cbn [lift mbind prog_bind pbind hash get_node db_insert wp mret prog_ret]. intros H1 H2.
    split_and!; [done|done|].
    apply wp_bind. eapply wp_mono; [| |apply IH].
    - intros ls st' Hst'. exact Hst'.
    - done.
    - intros k' Hk'. apply Hd. by right.
    - by apply put_absent, put_absent.
  Qed.
  (** C40 *)
  Theorem missing_root st root : b_vis B st !! root = None →
    (∀ D ks, ∃ lm, out B H (get dec D root ks) st = ROk lm ∧
       ∀ k, lm !! k = if decide (k ∈ ks) then Some None else None) ∧
    (∀ D k, out B H (get_one dec D root k) st = ROk None) ∧
    (∀ D k, ∃ er, out B H (generate_inclusion_proof D root k) st = RErr er) ∧
    (out B H (remove_prog B st root) st = ROk tt ∧ fin B H (remove_prog B st root) st = b_flush B st) ∧
    (∀ D ks vs, (∀ x, x ∈ hlog B H (insert enc D (Some root) ks vs) st → H x ≠ root) →
       ∃ er, out B H (insert enc D (Some root) ks vs) st = RErr er).
  Proof.
    intros Hr. split_and!.
    - intros D ks. destruct ks as [|k0 ks0].
      { exists ∅. split; [done|]. intros k. rewrite lookup_empty. by rewrite decide_False by apply not_elem_of_nil. }
      eexists. split; [unfold get, out, get_node; cbn [mbind prog_bind pbind run]; by rewrite Hr|].
      intros k. by rewrite leaf_map_lookup.
    - intros D k. unfold get_one. rewrite Nat.add_comm. unfold out. cbn. by rewrite Hr.
    - intros D k. unfold generate_inclusion_proof. rewrite Nat.add_comm. unfold out. cbn. rewrite Hr. eauto.
    - by apply remove_total.
    - by apply remove_total.
    - intros D ks vs Hlog. unfold insert in *.
      destruct (Nat.eqb_spec (length ks) (length vs)) as [Hlen|Hlen]; simpl in *; [|eauto].
      destruct (Nat.eqb_spec (length ks) 0) as [Hz|Hne]; simpl in *; [eauto|].
      destruct (Nat.eqb_spec (length vs) 0) as [|Hne']; simpl in *; [eauto|].
      assert (wp B H (λ x, H x ≠ root) (λ _, True)
        (insert_sorted enc D (Some root) (sort_keys ks) (value_map_of ks vs)) (λ _ _, False) (λ _ _, True) st) as Hw.
      { unfold insert_sorted. apply wp_bind. eapply wp_mono; [| |apply insert_leaves_absent].
        - intros ls st' Hst'. cbn beta. apply wp_bind. unfold generate_treerefs. apply wp_bind.
          cbn [get_node wp]. by rewrite Hst'.
        - done.
        - intros k Hk. apply value_map_some; [done|done|]. by apply elem_of_sort_keys.
        - done. }
      apply wp_run in Hw; [|done]. destruct (out B H _ st) as [r|er| |]; try done. eauto.
  Qed.
End Missing.
