(** * Termination on machine integers, on arbitrary databases *)
From Coq Require Import Strings.Byte NArith.
From stdpp Require Import prelude countable gmap sorting strings.
From Verif Require Import Model Bits Spec Util Trie Store Logic Build Evol Route Reads Insert Update Safe Get Hist Claims Total Struct Machine MachineProofs.

Local Open Scope nat_scope.

Section MachineTotal.
  Context (M : build) {n : nat} {V : Type} (enc : V → res bytes) (dec : bytes → res V) (D : nat).
  Context (HD : fits (wptr M) (D + 1)).
  Notation cell := (@cell n).
  Notation measure := (measure (n := n) D).
  Notation cok := (cok D).

  Lemma m_check_shorter (ks : list (arr n)) si bk m ds : m_check_descendants M ks si bk m = Ok ds → length ds ≤ length ks.
  Proof using.
    unfold m_check_descendants. destruct (m_descendant_range _ _ _ _ _ _ _ _ _) as [r| |]; cbn; [|done..]. apply slice_length.
  Qed.
  Lemma m_depth d : d ≤ D → m_add M (wptr M) d 1 = Ok (d + 1).
  Proof using HD. intros Hd. apply m_add_ok. eapply fits_le; [|exact HD]. lia. Qed.

  Lemma m_push_cell_tw q d l ks c (Q : list cell → nat → Prop) : Forall cok q → d ≤ D →
    (∀ q', Forall cok q' → measure q' ≤ length ks * (D + 1 - d) + measure q → Q q' c) →
    tw (m_push_cell_if_node M q d l ks) (S c) Q.
  Proof using HD.
    intros Hq Hd HQ. unfold m_push_cell_if_node. apply tw_bind. cbn [get_node tw]. intros [nd|].
    - destruct ks as [|k ks]; cbn [mret prog_ret tw].
      + apply HQ; [done|]. cbn [length]. lia.
      + rewrite m_depth by done. cbn [lift mbind prog_bind pbind mret prog_ret tw]. apply HQ.
        * constructor; [|done]. split; simpl; [done|lia].
        * rewrite measure_cons. simpl ckeys. simpl cdepth.
          replace (D + 2 - (d + 1)) with (D + 1 - d) by lia. done.
    - apply HQ; [done|apply Nat.le_add_l].
  Qed.
  Lemma m_get_loop_tw fuel keys lm q : Forall cok q → measure q ≤ fuel →
    tw (m_get_loop M dec D fuel keys lm q) (2 * measure q) (λ _ _, True).
  Proof using HD.
    revert lm q. induction fuel as [|fuel IH]; intros lm q Hq Hm.
    { destruct q as [|c q]; [done|]. exfalso. apply Forall_cons in Hq as [Hc _].
      pose proof (keys_pos D c Hc). destruct Hc as [_ Hc]. rewrite measure_cons in Hm. nia. }
    destruct q as [|c q]; [done|]. cbn [m_get_loop].
    apply Forall_cons in Hq as [Hc Hq]. pose proof (keys_pos D c Hc) as Hpos.
    rewrite measure_cons in *.
    destruct (Nat.ltb_spec D (cdepth c)) as [|Hd]; [done|].
    assert (length (ckeys c) * (D + 2 - cdepth c) = length (ckeys c) + length (ckeys c) * (D + 1 - cdepth c)) as Heq.
    { replace (D + 2 - cdepth c) with (1 + (D + 1 - cdepth c)) by lia. lia. }
    rewrite Heq in *. clear Heq. remember (length (ckeys c) * (D + 1 - cdepth c)) as X eqn:HX.
    remember (measure q) as Mq eqn:HMq. remember (length (ckeys c)) as len eqn:Hlen.
    assert (∀ q' cc lm', Forall cok q' → measure q' ≤ X + Mq → 2 * (X + Mq) ≤ cc →
      tw (m_get_loop M dec D fuel keys lm' q') cc (λ _ _, True)) as Hnext.
    { intros q' cc lm' Hq' Hm' Hcc. eapply tw_weak; [|apply IH; [done|lia]]. lia. }
    assert (∃ cc, 2 * (len + X + Mq) = S (S cc) ∧ 2 * (X + Mq) ≤ cc) as (cc & -> & Hcc).
    { exists (2 * (len + X + Mq) - 2). lia. }
    destruct (var (cnode c)) as [cnt zero one si bk|lk ld|e]; [| |done].
    - apply tw_bind, tw_lift. intros m _. apply tw_bind, tw_lift. intros ds Hds.
      apply m_check_shorter in Hds.
      destruct ds as [|d0 ds]; [apply Hnext; [done|lia|lia]|].
      apply tw_bind, tw_lift. intros zo Hzo.
      destruct (split_pairs_length _ _ _ Hzo) as [Hzl|[? _]]; [|done].
      apply tw_bind. apply m_push_cell_tw; [done|done|]. intros q1 Hq1 Hm1.
      apply tw_bind. apply m_push_cell_tw; [done|done|]. intros q2 Hq2 Hm2.
      apply Hnext; [done| |done].
      assert (length zo.1 * (D + 1 - cdepth c) + length zo.2 * (D + 1 - cdepth c) ≤ X); [|lia].
      rewrite HX, <- Nat.mul_add_distr_r. apply Nat.mul_le_mono_r. lia.
    - apply tw_bind.
      simpl. intros [nd|]; [|done]. destruct (var nd) as [| |e]; try done.
      apply tw_bind, tw_lift. intros v _. destruct (binary_search keys lk) as [i|].
      + apply tw_bind, tw_lift. intros k _. apply Hnext; [done|lia|lia].
      + apply Hnext; [done|lia|lia].
  Qed.
  Lemma m_get_tw root (ks : list (arr n)) :
    tw (m_get M dec D root ks) (1 + 2 * (length ks * (D + 2))) (λ _ _, True).
  Proof using HD.
    unfold m_get. destruct ks as [|k0 ks0]; [done|]. set (ks := k0 :: ks0).
    apply tw_bind. simpl. intros [nd|]; [|done].
    assert (sort_keys ks ≠ []) as Hne.
    { intros Hnil. assert (length (sort_keys ks) = 0) as Hl by (by rewrite Hnil).
      rewrite sort_keys_length in Hl. done. }
    eapply tw_weak; [|apply m_get_loop_tw].
    - rewrite measure_cons. cbn [ckeys cdepth measure sum_list_with]. rewrite sort_keys_length.
      simpl length. lia.
    - constructor; [|done]. split; [done|simpl; lia].
    - rewrite measure_cons. cbn [ckeys cdepth measure sum_list_with]. unfold traverse_fuel. simpl. lia.
  Qed.
  Lemma m_get_one_loop_tw fuel k d fl l : D + 2 ≤ fuel + d → d ≤ D + 1 →
    tw (m_get_one_loop (n := n) M dec D fuel k d fl l) (D + 1 - d) (λ _ _, True).
  Proof using HD.
    revert d fl l. induction fuel as [|fuel IH]; intros d fl l Hf Hd; [lia|]. cbn [m_get_one_loop].
    destruct (Nat.ltb_spec D d) as [|Hd']; [done|]. apply tw_bind. rewrite m_depth by done. cbn [lift tw]. apply tw_bind.
    replace (D + 1 - d) with (S (D + 1 - (d + 1))) by lia. cbn [get_node tw]. intros [nd|]; [|done].
    destruct (var nd) as [cnt zero one si bk|lk ld|e].
    - destruct fl; [done|]. apply tw_bind, tw_lift. intros m _. apply tw_bind, tw_lift. intros ds _.
      destruct ds; [done|]. apply tw_bind, tw_lift. intros z _. apply IH; lia.
    - destruct fl; [done|]. destruct (decide (lk = k)); [|done]. apply IH; lia.
    - destruct fl; [|done]. apply tw_bind, tw_lift. done.
  Qed.
  Lemma m_gen_proof_loop_tw fuel (k : arr n) d fl acc l : D + 2 ≤ fuel + d → d ≤ D + 1 →
    tw (m_gen_proof_loop M D fuel k d fl acc l) (D + 1 - d) (λ _ _, True).
  Proof using HD.
    revert d fl acc l. induction fuel as [|fuel IH]; intros d fl acc l Hf Hd; [lia|]. cbn [m_gen_proof_loop].
    destruct (Nat.ltb_spec D d) as [|Hd']; [done|]. apply tw_bind. rewrite m_depth by done. cbn [lift tw]. apply tw_bind.
    replace (D + 1 - d) with (S (D + 1 - (d + 1))) by lia. cbn [get_node tw]. intros [nd|]; [|done].
    destruct (var nd) as [cnt zero one si bk|lk ld|e].
    - destruct fl; [done|]. apply tw_bind, tw_lift. intros m _. apply tw_bind, tw_lift. intros ds _.
      destruct ds; [done|]. apply tw_bind, tw_lift. intros [|] _; apply IH; lia.
    - destruct fl; [done|]. destruct (decide (lk = k)); [|done]. apply tw_bind. cbn [hash tw].
      intros h. apply IH; lia.
    - destruct fl; [|done]. done.
  Qed.

  (** ** Insertion *)
  Lemma m_insert_leaves_tw vm (ks : list (arr n)) c (Q : list (arr n) → nat → Prop) :
    (∀ ls, Q ls c) → tw (m_insert_leaves M enc vm ks) (2 * length ks + c) Q.
  Proof using.
    revert c Q. induction ks as [|k ks IH]; intros c Q HQ; [by apply HQ|].
    cbn [m_insert_leaves]. apply tw_bind. unfold m_insert_leaves_one.
    destruct (vm !! k) as [v|]; [|done]. apply tw_bind, tw_lift. intros e _.
    replace (2 * length (k :: ks) + c) with (S (S (2 * length ks + c))) by (simpl; lia).
    cbn [mbind prog_bind pbind hash get_node tw]. intros h1 h2 od.
    apply tw_bind, tw_lift. intros rd _. cbn [mbind prog_bind pbind get_node tw]. intros ol.
    apply tw_bind, tw_lift. intros rl _. cbn [mbind prog_bind pbind db_insert tw mret prog_ret].
    change (tw (m_insert_leaves M enc vm ks ≫= (λ ls, mret (h2 :: ls))) (2 * length ks + c) Q).
    apply tw_bind. apply IH. intros ls. apply HQ.
  Qed.
  Lemma m_insert_leaf_tw l c (Q : unit → nat → Prop) : Q tt c → tw (n := n) (m_insert_leaf M l) (S c) Q.
  Proof using.
    intros HQ. unfold m_insert_leaf. cbn [mbind prog_bind pbind get_node tw]. intros [nd|]; [|done].
    apply tw_bind, tw_lift. intros rf _. done.
  Qed.
  Lemma m_split_nodes_tw d b (ks : list (arr n)) c (Q : tref n + cell → nat → Prop) :
    d ≤ D →
    (∀ r, (∀ acc q acc' q', Forall cok q → push_split r acc q = (acc', q') →
             Forall cok q' ∧ measure q' ≤ length ks * (D + 1 - d) + measure q) → Q r c) →
    tw (m_split_nodes M d b ks) (S c) Q.
  Proof using HD.
    intros Hd HQ. unfold m_split_nodes. apply tw_bind. cbn [get_node tw]. intros [nd|]; [|done].
    destruct ks as [|k ks].
    - apply tw_bind, tw_lift. intros rf _. destruct (var nd); [| |done]; apply tw_bind; cbn [db_insert tw]; apply HQ;
        intros acc q acc' q' Hq [= <- <-]; (split; [done|apply Nat.le_add_l]).
    - rewrite m_depth by done. cbn [lift mbind prog_bind pbind mret prog_ret tw].
      apply HQ. intros acc q acc' q' Hq [= <- <-]. split.
      + constructor; [|done]. split; simpl; [done|lia].
      + rewrite measure_cons. simpl ckeys. simpl cdepth.
        replace (D + 2 - (d + 1)) with (D + 1 - d) by lia. done.
  Qed.
  Lemma m_traverse_tw fuel km acc q : Forall cok q → measure q ≤ fuel →
    tw (m_traverse_tree M D fuel km acc q) (2 * measure q) (λ _ _, True).
  Proof using HD.
    revert acc q. induction fuel as [|fuel IH]; intros acc q Hq Hm.
    { destruct q as [|c q]; [done|]. exfalso. apply Forall_cons in Hq as [Hc _].
      pose proof (keys_pos D c Hc). destruct Hc as [_ Hc]. rewrite measure_cons in Hm. nia. }
    destruct q as [|c q]; [done|]. cbn [m_traverse_tree].
    apply Forall_cons in Hq as [Hc Hq]. pose proof (keys_pos D c Hc) as Hpos.
    rewrite measure_cons in *.
    destruct (Nat.ltb_spec D (cdepth c)) as [|Hd]; [done|].
    assert (length (ckeys c) * (D + 2 - cdepth c) = length (ckeys c) + length (ckeys c) * (D + 1 - cdepth c)) as Heq.
    { replace (D + 2 - cdepth c) with (1 + (D + 1 - cdepth c)) by lia. lia. }
    rewrite Heq in *. clear Heq. remember (length (ckeys c) * (D + 1 - cdepth c)) as X eqn:HX.
    remember (measure q) as Mq eqn:HMq. remember (length (ckeys c)) as len eqn:Hlen.
    assert (∀ q' cc acc', Forall cok q' → measure q' ≤ X + Mq → 2 * (X + Mq) ≤ cc →
      tw (m_traverse_tree M D fuel km acc' q') cc (λ _ _, True)) as Hnext.
    { intros q' cc acc' Hq' Hm' Hcc. eapply tw_weak; [|apply IH; [done|lia]]. lia. }
    assert (∃ cc, 2 * (len + X + Mq) = S (S cc) ∧ 2 * (X + Mq) ≤ cc) as (cc & -> & Hcc).
    { exists (2 * (len + X + Mq) - 2). lia. }
    destruct (var (cnode c)) as [cnt zero one si bk|lk ld|e]; [| |done].
    - apply tw_bind, tw_lift. intros m _. apply tw_bind.
      assert (tw (n := n) (if m <? si then lift (m_check_descendants M (ckeys c) si bk m) else mret (ckeys c)) (S (S cc))
        (λ ds cc', cc' = S (S cc) ∧ length ds ≤ len ∧ (ds = [] → m < si))) as Hds.
      { destruct (Nat.ltb_spec m si).
        - apply tw_lift. intros ds Hds%m_check_shorter. split_and!; [done|lia|done].
        - split_and!; [done|lia|]. destruct Hc as [Hc _]. done. }
      eapply tw_mono; [|exact Hds]. clear Hds. cbn beta. intros ds cc' (-> & Hds & Hnil).
      destruct ((m <? si) && (length ds =? 0)) eqn:Hb.
      { apply tw_bind, tw_lift. intros rf _. apply tw_bind. cbn [db_insert tw]. apply Hnext; [done|lia|lia]. }
      apply tw_bind, tw_lift. intros zo Hzo.
      destruct (split_pairs_length _ _ _ Hzo) as [Hzl|[-> _]].
      2:{ exfalso. apply andb_false_iff in Hb as [Hb|Hb]; [|done].
          apply Nat.ltb_ge in Hb. specialize (Hnil eq_refl). lia. }
      apply tw_bind. apply m_split_nodes_tw; [done|]. intros r1 Hr1.
      destruct (push_split r1 acc q) as [acc1 q1] eqn:Hp1.
      destruct (Hr1 acc q acc1 q1 Hq Hp1) as [Hq1 Hm1].
      apply tw_bind. apply m_split_nodes_tw; [done|]. intros r0 Hr0.
      destruct (push_split r0 acc1 q1) as [acc2 q2] eqn:Hp2.
      destruct (Hr0 acc1 q1 acc2 q2 Hq1 Hp2) as [Hq2 Hm2].
      apply Hnext; [done| |done].
      assert (length zo.1 * (D + 1 - cdepth c) + length zo.2 * (D + 1 - cdepth c) ≤ X); [|lia].
      rewrite HX, <- Nat.mul_add_distr_r. apply Nat.mul_le_mono_r. lia.
    - destruct (km !! lk) as [lc|].
      + destruct (decide (lc = cloc c)); [|apply Hnext; [done|lia|lia]].
        apply tw_bind, m_insert_leaf_tw, Hnext; [done|lia|lia].
      + apply tw_bind, m_insert_leaf_tw, Hnext; [done|lia|lia].
  Qed.
  Lemma m_merge_level_tw rs root level c : tw (n := n) (m_merge_level M rs root level) c (λ _ _, True).
  Proof using.
    revert rs root. induction level as [|[[si p] nx] level IH]; intros rs root; [done|].
    cbn [m_merge_level]. apply tw_bind. unfold m_merge_one.
    apply tw_bind, tw_lift. intros rp _. apply tw_bind, tw_lift. intros rn _.
    apply tw_bind, tw_lift. intros la _. apply tw_bind, tw_lift. intros rl _.
    apply tw_bind, tw_lift. intros cnt _.
    cbn [mbind prog_bind pbind hash db_insert tw]. intros h. apply tw_bind, tw_lift. intros w _. apply IH.
  Qed.
  Lemma m_merge_all_tw rs root levels c : tw (n := n) (m_merge_all M rs root levels) c (λ _ _, True).
  Proof using.
    revert rs root c. induction levels as [|level levels IH]; intros rs root c; [done|].
    cbn [m_merge_all]. apply tw_bind. unfold m_merge_nodes. apply tw_bind.
    eapply tw_mono; [|apply m_merge_level_tw]. intros a c' _. apply tw_bind. cbn [batch_write tw]. apply IH.
  Qed.
  Lemma m_create_tree_tw (rs : list (tref n)) c : tw (m_create_tree M rs) c (λ _ _, True).
  Proof using.
    unfold m_create_tree. destruct rs as [|r0 [|r1 rs]]; [done|done|].
    apply tw_bind, tw_lift. intros items _. apply tw_bind.
    eapply tw_mono; [|apply m_merge_all_tw]. intros [root|] c' _; done.
  Qed.
  Lemma m_insert_sorted_tw prev (ks : list (arr n)) vm : ks ≠ [] →
    tw (m_insert_sorted M enc D prev ks vm) (2 * length ks + (1 + 2 * (length ks * (D + 2)))) (λ _ _, True).
  Proof using HD.
    intros Hne. unfold m_insert_sorted. apply tw_bind, m_insert_leaves_tw. intros ls. apply tw_bind.
    destruct prev as [root|]; [|apply m_create_tree_tw].
    unfold m_generate_treerefs. apply tw_bind. cbn [get_node tw plus]. intros [nd|]; [|done].
    eapply tw_mono; [intros pn c' _; apply m_create_tree_tw|].
    eapply tw_weak; [|apply m_traverse_tw].
    - rewrite measure_cons. cbn [ckeys cdepth measure sum_list_with]. lia.
    - constructor; [|done]. split; [done|simpl; lia].
    - rewrite measure_cons. cbn [ckeys cdepth measure sum_list_with]. unfold traverse_fuel. lia.
  Qed.
End MachineTotal.

(** The depth limit and the number of keys of a call. *)
Definition limit_of {n V} (c : call n V) : nat :=
  match c with
  | CInsert D _ _ _ | CInsertOne D _ _ _ | CGet D _ _ | CGetOne D _ _ | CProve D _ _ => D
  | CVerify _ _ _ _ => 0
  end.
Definition width_of {n V} (c : call n V) : nat :=
  match c with CInsert _ _ ks _ | CGet _ _ ks => length ks | CVerify _ _ _ _ => 0 | _ => 1 end.
Section Calls.
  Context (M : build) {n : nat} {V : Type} (enc : V → res bytes) (dec : bytes → res V).
  Lemma verify_tw r k v p c : tw (verify_inclusion_proof (n := n) enc r k v p) c (λ _ _, True).
  Proof using.
    destruct p as [|p0 [|p1 items]]; [done|done|]. unfold verify_inclusion_proof.
    apply tw_bind, tw_lift. intros e _.
    cbn [hash mbind prog_bind pbind tw]. intros h1. destruct (decide _); [|done].
    cbn [hash mbind prog_bind pbind tw]. intros h2. destruct (decide _); [|done].
    apply tw_bind. eapply (tw_mono _ _ (λ _ _, True)); [intros cur c' _; by destruct (decide _)|].
    generalize h2. clear. induction items as [|[h b] items IH]; intros cur; [done|].
    cbn [verify_fold]. cbn [hash mbind prog_bind pbind tw]. intros h'. apply IH.
  Qed.
  Lemma m_exec_tw (c : call n V) : fits (wptr M) (limit_of c + 1) →
    tw (m_exec M enc dec c) (1 + 2 * width_of c * (limit_of c + 3)) (λ _ _, True).
  Proof using.
    destruct c as [D prev ks vs|D prev k v|D root ks|D root k|D root k|root k v proof]; cbn [m_exec limit_of width_of]; intros HD.
    - apply tw_bind. eapply (tw_mono _ _ (λ _ _, True)); [done|].
      unfold m_insert. destruct (length ks =? length vs); [|done]. cbn [negb].
      destruct (Nat.eqb_spec (length ks) 0) as [|Hne]; [done|]. destruct (length vs =? 0); [done|]. cbn [orb].
      eapply tw_weak; [|apply m_insert_sorted_tw; [done|]].
      + rewrite sort_keys_length. lia.
      + intros Hnil. apply Hne. rewrite <- sort_keys_length, Hnil. done.
    - apply tw_bind. eapply (tw_mono _ _ (λ _ _, True)); [done|].
      eapply tw_weak; [|by apply m_insert_sorted_tw]. cbn [length]. lia.
    - apply tw_bind. eapply (tw_mono _ _ (λ _ _, True)); [done|]. eapply tw_weak; [|by apply m_get_tw]. lia.
    - apply tw_bind. eapply (tw_mono _ _ (λ _ _, True)); [done|].
      eapply tw_weak; [|apply m_get_one_loop_tw; [done|lia..]]. lia.
    - apply tw_bind. eapply (tw_mono _ _ (λ _ _, True)); [done|]. unfold m_generate_inclusion_proof.
      apply tw_bind, tw_lift. intros _ _. apply tw_bind, tw_lift. intros _ _.
      eapply tw_weak; [|apply m_gen_proof_loop_tw; [done|lia..]]. lia.
    - apply verify_tw.
  Qed.
  Theorem m_bounded (B : backend n) (H : list bytes → arr n) st (c : call n V) : fits (wptr M) (limit_of c + 1) →
    out B H (m_exec M enc dec c) st ≠ RFuel ∧ fetches B H (m_exec M enc dec c) st ≤ 1 + 2 * width_of c * (limit_of c + 3).
  Proof using. intros HD. by eapply tw_run, m_exec_tw. Qed.
End Calls.
