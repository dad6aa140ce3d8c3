(** * The work of a call on any database *)
From Coq Require Import Strings.Byte NArith.
From stdpp Require Import prelude countable gmap sorting strings.
From Verif Require Import Model Bits Spec Util Trie Store Logic Build Evol Route Reads Insert Update Safe Get Hist Claims RefCount Struct Total Machine Counts Need Cost.

Local Open Scope nat_scope.

(** The number of [Database::remove] and [Database::batch_write] calls of an execution. *)
Section Ops.
  Context {n : nat} (B : backend n) (H : list bytes → arr n).
  Fixpoint deletes {A} (p : prog n A) (st : b_st B) : nat :=
    match p with
    | Ret _ | Throw _ | Panic | Fuel => 0
    | Hash cs k => deletes (k (H cs)) st
    | Get l k => deletes (k (b_vis B st !! l)) st
    | Put l nd k => deletes k (b_put B st l nd)
    | Del l k => S (deletes k (b_del B st l))
    | Flush k => deletes k (b_flush B st)
    end.
  Fixpoint flushes {A} (p : prog n A) (st : b_st B) : nat :=
    match p with
    | Ret _ | Throw _ | Panic | Fuel => 0
    | Hash cs k => flushes (k (H cs)) st
    | Get l k => flushes (k (b_vis B st !! l)) st
    | Put l nd k => flushes k (b_put B st l nd)
    | Del l k => flushes k (b_del B st l)
    | Flush k => S (flushes k (b_flush B st))
    end.
End Ops.

(** ** Budgets
    [cg], [cp], [ch], [cf]: prices of a fetch, a write, a hash, a commit.  [bw p b Q]:
    whatever is answered, [p] spends at most [b], deletes nothing, and on a normal
    return of [a] with [b'] left [Q a b'] holds. *)
Section Budget.
  Context {n : nat} (cg cp ch cf : nat).
  Fixpoint bw {A} (p : prog n A) (b : nat) (Q : A → nat → Prop) : Prop :=
    match p with
    | Ret a => Q a b
    | Throw _ | Panic => True
    | Fuel => False
    | Hash cs k => ch ≤ b ∧ ∀ h, bw (k h) (b - ch) Q
    | Get l k => cg ≤ b ∧ ∀ o, bw (k o) (b - cg) Q
    | Put l nd k => cp ≤ b ∧ bw k (b - cp) Q
    | Del l k => False
    | Flush k => cf ≤ b ∧ bw k (b - cf) Q
    end.
  Lemma bw_bind {A C} (p : prog n A) (f : A → prog n C) b Q :
    bw p b (λ a b', bw (f a) b' Q) → bw (p ≫= f) b Q.
  Proof.
    change (p ≫= f) with (pbind f p). revert b.
    induction p as [a|e| | |cs k IH|l k IH|l nd k IH|l k IH|k IH]; intros b; cbn [bw pbind]; auto; intros [? ?]; auto.
  Qed.
  Lemma bw_mono {A} (p : prog n A) b (Q Q' : A → nat → Prop) : (∀ a b', Q a b' → Q' a b') → bw p b Q → bw p b Q'.
  Proof.
    intros HQ. revert b.
    induction p as [a|e| | |cs k IH|l k IH|l nd k IH|l k IH|k IH]; intros b; cbn [bw]; auto; intros [? ?]; auto.
  Qed.
  (** With [b + x] to spend instead of [b], [x] more is left. *)
  Lemma bw_frame {A} (p : prog n A) b x (Q : A → nat → Prop) : bw p b (λ a b', Q a (b' + x)) → bw p (b + x) Q.
  Proof.
    revert b. induction p as [a|e| | |cs k IH|l k IH|l nd k IH|l k IH|k IH]; intros b; cbn [bw]; auto; intros [? Hk];
      (split; [lia|]).
    - intros h. replace (b + x - ch) with (b - ch + x) by lia. auto.
    - intros o. replace (b + x - cg) with (b - cg + x) by lia. auto.
    - replace (b + x - cp) with (b - cp + x) by lia. auto.
    - replace (b + x - cf) with (b - cf + x) by lia. auto.
  Qed.
  Lemma bw_weak {A} (p : prog n A) b b' (Q : A → Prop) : b ≤ b' → bw p b (λ a _, Q a) → bw p b' (λ a _, Q a).
  Proof. intros Hb Hp. replace b' with (b + (b' - b)) by lia. by apply bw_frame. Qed.
  Lemma bw_lift {A} (r : res A) b (Q : A → nat → Prop) : (∀ a, r = Ok a → Q a b) → bw (lift r) b Q.
  Proof. intros Hr. destruct r; cbn; auto. Qed.
  Lemma bw_get l b (Q : option (node n) → nat → Prop) : (∀ o, Q o b) → bw (get_node l) (cg + b) Q.
  Proof. intros HQ. cbn. split; [lia|]. intros o. by replace (cg + b - cg) with b by lia. Qed.
  Lemma bw_put l nd b (Q : unit → nat → Prop) : Q tt b → bw (db_insert l nd) (cp + b) Q.
  Proof. intros HQ. cbn. split; [lia|]. by replace (cp + b - cp) with b by lia. Qed.
  Lemma bw_hash cs b (Q : arr n → nat → Prop) : (∀ h, Q h b) → bw (hash cs) (ch + b) Q.
  Proof. intros HQ. cbn. split; [lia|]. intros h. by replace (ch + b - ch) with b by lia. Qed.
  Lemma bw_flush b (Q : unit → nat → Prop) : Q tt b → bw batch_write (cf + b) Q.
  Proof. intros HQ. cbn. split; [lia|]. by replace (cf + b - cf) with b by lia. Qed.
  Lemma bw_run {A} (p : prog n A) b Q (B : backend n) H st : bw p b Q →
    cg * fetches B H p st + cp * writes B H p st + ch * length (hlog B H p st) + cf * flushes B H p st ≤ b ∧
    deletes B H p st = 0.
  Proof.
    unfold hlog. revert b st.
    induction p as [a|e| | |cs k IH|l k IH|l nd k IH|l k IH|k IH]; intros b st; cbn [bw run fetches writes deletes flushes];
      try (intros; cbn; split; [lia|done]); try done; intros [Hb Hk]; revert Hb Hk.
    - intros Hb Hk. destruct (IH (H cs) (b - ch) st (Hk _)) as [H2 H3].
      destruct (run B H (k (H cs)) st) as [[o s'] lg]. cbn [snd length] in *. split; [lia|done].
    - intros Hb Hk. destruct (IH (b_vis B st !! l) (b - cg) st (Hk _)) as [H2 H3]. split; [lia|done].
    - intros Hb Hk. destruct (IH (b - cp) (b_put B st l nd) Hk) as [H2 H3]. split; [lia|done].
    - intros Hb Hk. destruct (IH (b - cf) (b_flush B st) Hk) as [H2 H3]. split; [lia|done].
  Qed.

  Section Calls.
    Context {V : Type} (enc : V → res bytes) (dec : bytes → res V) (D : nat).
    Notation cell := (@cell n).
    Notation measure := (measure (n := n) D).

    Lemma insert_leaves_bw vm (ks : list (arr n)) b (Q : list (arr n) → nat → Prop) :
      (∀ ls, length ls = length ks → Q ls b) → bw (insert_leaves enc vm ks) (length ks * (2 * cg + 2 * cp + 2 * ch) + b) Q.
    Proof.
      revert b Q. induction ks as [|k ks IH]; intros b Q HQ; [by apply HQ|].
      cbn [insert_leaves]. apply bw_bind. unfold insert_leaves_one.
      destruct (vm !! k) as [v|]; [|done]. apply bw_bind, bw_lift. intros e _.
      replace (length (k :: ks) * (2 * cg + 2 * cp + 2 * ch) + b) with
        (ch + (ch + (cg + (cg + (cp + (cp + (length ks * (2 * cg + 2 * cp + 2 * ch) + b))))))) by (cbn [length]; lia).
      apply bw_bind, bw_hash. intros h1. apply bw_bind, bw_hash. intros h2.
      apply bw_bind, bw_get. intros o1. apply bw_bind, bw_get. intros o2.
      apply bw_bind, bw_put, bw_bind, bw_put. cbn [mret prog_ret bw].
      apply bw_bind. apply IH. intros ls Hls. apply HQ. cbn. by f_equal.
    Qed.
    Lemma insert_leaf_bw l b (Q : unit → nat → Prop) : Q tt b → bw (insert_leaf l) (cg + (cp + b)) Q.
    Proof. intros HQ. unfold insert_leaf. apply bw_bind, bw_get. intros [nd|]; [|done]. by apply bw_put. Qed.
    Lemma split_nodes_bw d l (ks : list (arr n)) b (Q : tref n + cell → nat → Prop) : d ≤ D →
      (∀ r b', b ≤ b' → (∀ acc q acc' q', Forall (cok D) q → push_split r acc q = (acc', q') →
               Forall (cok D) q' ∧ measure q' ≤ length ks * (D + 1 - d) + measure q ∧
               length acc' + length q' = length acc + length q + 1) → Q r b') →
      bw (split_nodes d l ks) (cg + (cp + b)) Q.
    Proof.
      intros Hd HQ. unfold split_nodes. apply bw_bind, bw_get. intros [nd|]; [|done].
      destruct ks as [|k ks].
      - destruct (var nd); [| |done]; apply bw_bind, bw_put; apply HQ; [lia| |lia|];
          intros acc q acc' q' Hq [= <- <-]; (split; [done|]); rewrite app_length; cbn; lia.
      - cbn [mret prog_ret bw]. apply HQ; [lia|]. intros acc q acc' q' Hq [= <- <-]. split.
        + constructor; [|done]. split; simpl; [done|lia].
        + rewrite measure_cons. simpl ckeys. simpl cdepth.
          replace (D + 2 - (d + 1)) with (D + 1 - d) by lia. split; [done|]. cbn [length]. lia.
    Qed.
    Lemma traverse_bw fuel km acc q b (Q : list (tref n) → nat → Prop) : Forall (cok D) q → measure q ≤ fuel →
      (∀ acc' b', b ≤ b' → length acc' ≤ length acc + length q + measure q → Q acc' b') →
      bw (traverse_tree D fuel km acc q) (measure q * (2 * cg + 2 * cp) + b) Q.
    Proof.
      revert acc q b Q. induction fuel as [|fuel IH]; intros acc q b Q Hq Hm HQ.
      { destruct q as [|c q]; [apply HQ; [lia|cbn; lia]|]. exfalso. apply Forall_cons in Hq as [Hc _].
        pose proof (keys_pos D c Hc). destruct Hc as [_ Hc]. rewrite measure_cons in Hm. nia. }
      destruct q as [|c q]; [apply HQ; [lia|cbn; lia]|]. cbn [traverse_tree].
      apply Forall_cons in Hq as [Hc Hq]. pose proof (keys_pos D c Hc) as Hpos.
      rewrite measure_cons in *.
      destruct (Nat.ltb_spec D (cdepth c)) as [|Hd]; [done|].
      assert (length (ckeys c) * (D + 2 - cdepth c) = length (ckeys c) + length (ckeys c) * (D + 1 - cdepth c)) as Heq.
      { replace (D + 2 - cdepth c) with (1 + (D + 1 - cdepth c)) by lia. lia. }
      rewrite Heq in *. clear Heq. remember (length (ckeys c) * (D + 1 - cdepth c)) as X eqn:HX.
      remember (measure q) as Mq eqn:HMq. remember (length (ckeys c)) as len eqn:Hlen. cbn [length] in HQ.
      remember (2 * cg + 2 * cp) as St eqn:HSt.
      assert (∀ q' bb acc', Forall (cok D) q' → measure q' ≤ X + Mq → length acc' + length q' ≤ length acc + length q + 2 →
        (X + Mq) * St + b ≤ bb → bw (traverse_tree D fuel km acc' q') bb Q) as Hnext.
      { intros q' bb acc' Hq' Hm' Hl' Hbb.
        assert (measure q' * St ≤ (X + Mq) * St) by (by apply Nat.mul_le_mono_r).
        replace bb with (measure q' * St + (bb - measure q' * St)) by lia.
        apply IH; [done|lia|]. intros a b' Hb' Ha. apply HQ; lia. }
      assert (∃ bb, (len + X + Mq) * St + b = St + bb ∧ (X + Mq) * St + b ≤ bb) as (bb & -> & Hbb).
      { exists ((len - 1 + X + Mq) * St + b). split; [|nia]. replace (len + X + Mq) with (1 + (len - 1 + X + Mq)) by lia. lia. }
      destruct (var (cnode c)) as [cnt zero one si bk|lk ld|e]; [| |done].
      - apply bw_bind, bw_lift. intros m _. apply bw_bind.
        assert (bw (if m <? si then lift (check_descendants (ckeys c) si bk m) else mret (ckeys c)) (St + bb)
          (λ ds bb', bb' = St + bb ∧ length ds ≤ len ∧ (ds = [] → m < si))) as Hds.
        { destruct (Nat.ltb_spec m si).
          - apply bw_lift. intros ds Hds%check_descendants_length. split_and!; [done|lia|done].
          - split_and!; [done|lia|]. destruct Hc as [Hc _]. done. }
        eapply bw_mono; [|exact Hds]. clear Hds. cbn beta. intros ds bb' (-> & Hds & Hnil).
        destruct ((m <? si) && (length ds =? 0)) eqn:Hb.
        { replace (St + bb) with (cp + (2 * cg + cp + bb)) by lia.
          apply bw_bind, bw_put. apply Hnext; [done|lia|rewrite app_length; cbn; lia|lia]. }
        apply bw_bind, bw_lift. intros zo Hzo.
        destruct (split_pairs_length _ _ _ Hzo) as [Hzl|[-> _]].
        2:{ exfalso. apply andb_false_iff in Hb as [Hb|Hb]; [|done].
            apply Nat.ltb_ge in Hb. specialize (Hnil eq_refl). lia. }
        replace (St + bb) with (cg + (cp + (cg + (cp + bb)))) by lia.
        apply bw_bind. apply split_nodes_bw; [done|]. intros r1 b1 Hb1 Hr1.
        destruct (push_split r1 acc q) as [acc1 q1] eqn:Hp1.
        destruct (Hr1 acc q acc1 q1 Hq Hp1) as (Hq1 & Hm1 & Hl1).
        apply bw_bind. replace b1 with (cg + (cp + (b1 - cg - cp))) by lia.
        apply split_nodes_bw; [done|]. intros r0 b0 Hb0 Hr0.
        destruct (push_split r0 acc1 q1) as [acc2 q2] eqn:Hp2.
        destruct (Hr0 acc1 q1 acc2 q2 Hq1 Hp2) as (Hq2 & Hm2 & Hl2).
        apply Hnext; [done| |lia|lia].
        assert (length zo.1 * (D + 1 - cdepth c) + length zo.2 * (D + 1 - cdepth c) ≤ X); [|lia].
        rewrite HX, <- Nat.mul_add_distr_r. apply Nat.mul_le_mono_r. lia.
      - destruct (km !! lk) as [lc|].
        + destruct (decide (lc = cloc c)); [|apply Hnext; [done|lia|lia|lia]].
          replace (St + bb) with (cg + (cp + (cg + cp + bb))) by lia.
          apply bw_bind, insert_leaf_bw, Hnext; [done|lia|lia|lia].
        + replace (St + bb) with (cg + (cp + (cg + cp + bb))) by lia.
          apply bw_bind, insert_leaf_bw, Hnext; [done|lia|rewrite app_length; cbn; lia|lia].
    Qed.
    Lemma treerefs_bw root (ks : list (arr n)) km b (Q : list (tref n) → nat → Prop) : ks ≠ [] →
      (∀ rs b', b ≤ b' → length rs ≤ 1 + length ks * (D + 2) → Q rs b') →
      bw (generate_treerefs D root ks km) (cg + (length ks * (D + 2) * (2 * cg + 2 * cp) + b)) Q.
    Proof.
      intros Hne HQ. unfold generate_treerefs. apply bw_bind, bw_get. intros [nd|]; [|done].
      set (q := [Cell root ks nd 0]).
      assert (measure q = length ks * (D + 2)) as Hm.
      { unfold q. rewrite measure_cons. cbn [ckeys cdepth]. rewrite Nat.sub_0_r. cbn. lia. }
      rewrite <- Hm. apply traverse_bw.
      - constructor; [|done]. split; [done|simpl; lia].
      - rewrite Hm. unfold traverse_fuel. lia.
      - intros acc' b' Hb' Hl. apply HQ; [done|]. rewrite Hm in Hl. cbn in Hl. lia.
    Qed.
    Lemma merge_level_bw rs root level b (Q : list (tref n) * arr n → nat → Prop) :
      (∀ r, Q r b) → bw (merge_level rs root level) (length level * (cp + ch) + b) Q.
    Proof.
      revert rs root b Q. induction level as [|[[si p] nx] level IH]; intros rs root b Q HQ; [apply HQ|].
      cbn [merge_level]. apply bw_bind. unfold merge_one.
      replace (length ((si, p, nx) :: level) * (cp + ch) + b) with (ch + (cp + (length level * (cp + ch) + b))) by (cbn [length]; lia).
      apply bw_bind, bw_lift. intros rp _. apply bw_bind, bw_lift. intros rn _.
      apply bw_bind, bw_lift. intros la _. apply bw_bind, bw_lift. intros rl _.
      apply bw_bind, bw_hash. intros h. apply bw_bind, bw_put. cbn [mret prog_ret bw]. by apply IH.
    Qed.
    Lemma merge_all_bw rs root levels b (Q : option (arr n) → nat → Prop) :
      (∀ r, Q r b) → bw (merge_all rs root levels) (length (mjoin levels) * (cp + ch) + (length levels * cf + b)) Q.
    Proof.
      revert rs root b Q. induction levels as [|level levels IH]; intros rs root b Q HQ; [apply HQ|].
      cbn [merge_all]. apply bw_bind. unfold merge_nodes. apply bw_bind.
      replace (length (mjoin (level :: levels)) * (cp + ch) + (length (level :: levels) * cf + b)) with
        (length level * (cp + ch) + (cf + (length (mjoin levels) * (cp + ch) + (length levels * cf + b))))
        by (rewrite mjoin_cons, app_length; cbn [length]; lia).
      apply merge_level_bw. intros r. apply bw_bind, bw_flush. cbn [mret prog_ret bw]. by apply IH.
    Qed.
    Lemma generate_items_split (Hn : 0 < n) (rs : list (tref n)) i its : generate_items i rs = Ok its →
      Forall (λ it : nat * nat * nat, it.1.1 < 8 * n) its.
    Proof.
      revert i its. induction rs as [|r1 rs IH]; intros i its; [by intros [= <-]|]. destruct rs as [|r2 rs]; [by intros [= <-]|].
      change (generate_items i (r1 :: r2 :: rs)) with
        (s ← adjacent_split 0 (tkey r1) (tkey r2); rest ← generate_items (S i) (r2 :: rs);
         Ok (match s with Some s => (s, i, i + 1) :: rest | None => rest end)).
      rewrite adjacent_split_key by done. destruct (decide (tkey r1 = tkey r2)) as [|Hne]; [done|]. cbn [mbind res_bind].
      destruct (generate_items (S i) (r2 :: rs)) as [rest|er|] eqn:Hr; [|done|done].
      intros [= <-]. constructor; [|by eapply IH]. cbn. by apply klcp_lt.
    Qed.
    Lemma levels_count (Hn : 0 < n) (rs : list (tref n)) i its : generate_items i rs = Ok its → length (levels_of its) ≤ 8 * n.
    Proof.
      intros Hits%generate_items_split; [|done]. unfold levels_of. rewrite fmap_length, reverse_length.
      rewrite (Permutation_length (merge_sort_Permutation le _)).
      rewrite <- (seq_length (8 * n) 0). apply submseteq_length, NoDup_submseteq; [apply NoDup_remove_dups|].
      intros x Hx. rewrite elem_of_remove_dups in Hx. apply elem_of_list_fmap in Hx as (it & -> & Hit). apply elem_of_seq.
      rewrite Forall_forall in Hits. specialize (Hits it Hit). lia.
    Qed.
    Lemma create_tree_bw (Hn : 0 < n) (rs : list (tref n)) R b : length rs ≤ R + 1 →
      R * (cp + ch) + 8 * n * cf ≤ b → bw (create_tree rs) b (λ _ _, True).
    Proof.
      intros HR Hb. unfold create_tree. destruct rs as [|r1 [|r2 rs]]; [done| |].
      { replace b with (cf + (b - cf)) by nia. by apply bw_bind, bw_flush. }
      set (rs' := r1 :: r2 :: rs) in *. assert (length (sort_refs rs') = length rs') as Hl.
      { unfold sort_refs. apply Permutation_length, merge_sort_Permutation. }
      apply bw_bind, bw_lift. intros its Hits. pose proof (levels_count Hn _ _ _ Hits) as Hlv.
      apply generate_items_length in Hits; [|done|].
      2:{ intros Hnil. rewrite Hnil in Hl. done. }
      destruct (levels_of_spec its) as (Hp & _). apply Permutation_length in Hp.
      assert (length (mjoin (levels_of its)) * (cp + ch) ≤ R * (cp + ch)) by (apply Nat.mul_le_mono_r; lia).
      assert (length (levels_of its) * cf ≤ 8 * n * cf) by (by apply Nat.mul_le_mono_r).
      apply bw_bind.
      replace b with (length (mjoin (levels_of its)) * (cp + ch) + (length (levels_of its) * cf +
        (b - length (mjoin (levels_of its)) * (cp + ch) - length (levels_of its) * cf))) by lia.
      apply merge_all_bw. by intros [root|].
    Qed.
    Lemma insert_sorted_bw (Hn : 0 < n) prev (ks : list (arr n)) vm : ks ≠ [] →
      bw (insert_sorted enc D prev ks vm)
        (cg * (1 + 2 * length ks * (D + 3)) + cp * (3 * length ks * (D + 3)) + ch * (length ks * (D + 5)) + cf * (8 * n))
        (λ _ _, True).
    Proof.
      intros Hne. unfold insert_sorted. set (N := length ks). apply bw_bind.
      replace (cg * (1 + 2 * N * (D + 3)) + cp * (3 * N * (D + 3)) + ch * (N * (D + 5)) + cf * (8 * n)) with
        (N * (2 * cg + 2 * cp + 2 * ch) + (cg + (N * (D + 2) * (2 * cg + 2 * cp) + ((N + N * (D + 2)) * (cp + ch) + 8 * n * cf)))) by lia.
      apply insert_leaves_bw. intros ls Hls. apply bw_bind.
      assert (length (zip_with (λ (l : arr n) k, TRef k l 1 1) ls ks) = N) as Hz by (rewrite zip_with_length; unfold N; lia).
      destruct prev as [root|].
      - apply treerefs_bw; [done|]. intros rs b' Hb' Hrs. fold N in Hrs.
        apply (create_tree_bw Hn _ (N + N * (D + 2))); [rewrite app_length, Hz; lia|lia].
      - cbn [mret prog_ret bw]. apply (create_tree_bw Hn _ (N + N * (D + 2))); [rewrite app_nil_r, Hz; lia|lia].
    Qed.
    Lemma insert_bw (Hn : 0 < n) prev (ks : list (arr n)) vs :
      bw (insert enc D prev ks vs)
        (cg * (1 + 2 * length ks * (D + 3)) + cp * (3 * length ks * (D + 3)) + ch * (length ks * (D + 5)) + cf * (8 * n))
        (λ _ _, True).
    Proof.
      unfold insert. destruct (length ks =? length vs); [|done]. cbn [negb].
      destruct (Nat.eqb_spec (length ks) 0) as [|Hne]; [done|]. destruct (length vs =? 0); [done|]. cbn [orb].
      rewrite <- (sort_keys_length ks). apply insert_sorted_bw; [done|].
      intros Hnil. apply Hne. rewrite <- sort_keys_length, Hnil. done.
    Qed.
  End Calls.
End Budget.

Section ReadWork.
  Context {n : nat} {V : Type} (enc : V → res bytes) (dec : bytes → res V) (cp ch cf D : nat).
  (** Here fetches are free; Total.v counts them. *)
  Notation fw := (bw 0 cp ch cf).
  Lemma fw_get (l : arr n) (Q : option (node n) → nat → Prop) b : (∀ o, Q o b) → fw (get_node l) b Q.
  Proof. intros HQ. exact (bw_get 0 cp ch cf l b Q HQ). Qed.
  Lemma push_cell_fw q d (l : arr n) ks b (Q : list (@cell n) → nat → Prop) : d ≤ D → Forall (cok D) q →
    (∀ q', Forall (cok D) q' → measure D q' ≤ length ks * (D + 1 - d) + measure D q → Q q' b) → fw (push_cell_if_node q d l ks) b Q.
  Proof.
    intros Hd Hq HQ. unfold push_cell_if_node. apply bw_bind, fw_get. intros [nd|].
    - destruct ks as [|k ks]; cbn [mret prog_ret bw]; apply HQ; [done|cbn [length]; lia| |].
      + constructor; [|done]. split; simpl; [done|lia].
      + rewrite measure_cons. simpl ckeys. simpl cdepth. by replace (D + 2 - (d + 1)) with (D + 1 - d) by lia.
    - apply HQ; [done|apply Nat.le_add_l].
  Qed.
  Lemma get_loop_fw fuel keys lm q : Forall (cok D) q → measure D q ≤ fuel →
    fw (get_loop (n := n) dec D fuel keys lm q) 0 (λ _ _, True).
  Proof.
    revert lm q. induction fuel as [|fuel IH]; intros lm q Hq Hm.
    { destruct q as [|c q]; [done|]. exfalso. apply Forall_cons in Hq as [Hc _].
      pose proof (keys_pos D c Hc). destruct Hc as [_ Hc]. rewrite measure_cons in Hm. nia. }
    destruct q as [|c q]; [done|]. cbn [get_loop].
    apply Forall_cons in Hq as [Hc Hq]. pose proof (keys_pos D c Hc) as Hpos. rewrite measure_cons in Hm.
    destruct (Nat.ltb_spec D (cdepth c)) as [|Hd]; [done|].
    assert (length (ckeys c) * (D + 2 - cdepth c) = length (ckeys c) + length (ckeys c) * (D + 1 - cdepth c)) as Heq.
    { replace (D + 2 - cdepth c) with (1 + (D + 1 - cdepth c)) by lia. lia. }
    rewrite Heq in Hm. clear Heq.
    destruct (var (cnode c)) as [cnt zero one si bk|lk ld|e]; [| |done].
    - apply bw_bind, bw_lift. intros m _. apply bw_bind, bw_lift. intros ds Hds.
      apply check_descendants_length in Hds.
      destruct ds as [|d0 ds]; [apply IH; [done|lia]|].
      apply bw_bind, bw_lift. intros zo Hzo.
      destruct (split_pairs_length _ _ _ Hzo) as [Hzl|[? _]]; [|done].
      apply bw_bind, push_cell_fw; [done|done|]. intros q1 Hq1 Hm1.
      apply bw_bind, push_cell_fw; [done|done|]. intros q2 Hq2 Hm2. apply IH; [done|].
      assert (length zo.1 * (D + 1 - cdepth c) + length zo.2 * (D + 1 - cdepth c) ≤ length (ckeys c) * (D + 1 - cdepth c)); [|lia].
      rewrite <- Nat.mul_add_distr_r. apply Nat.mul_le_mono_r. lia.
    - apply bw_bind, fw_get. intros [nd|]; [|done]. destruct (var nd) as [| |e]; try done.
      apply bw_bind, bw_lift. intros v _. destruct (binary_search keys lk) as [i|].
      + apply bw_bind, bw_lift. intros k _. apply IH; [done|lia].
      + apply IH; [done|lia].
  Qed.
  Lemma get_fw root (ks : list (arr n)) : fw (get dec D root ks) 0 (λ _ _, True).
  Proof.
    unfold get. destruct ks as [|k0 ks0]; [done|]. set (ks := k0 :: ks0).
    apply bw_bind, fw_get. intros [nd|]; [|done].
    assert (sort_keys ks ≠ []) as Hne.
    { intros Hnil. assert (length (sort_keys ks) = 0) as Hl by (by rewrite Hnil). by rewrite sort_keys_length in Hl. }
    apply get_loop_fw.
    - constructor; [|done]. split; [done|simpl; lia].
    - rewrite measure_cons. cbn [ckeys cdepth measure sum_list_with]. unfold traverse_fuel. cbn. lia.
  Qed.
  Lemma get_one_loop_fw fuel k d fl l : D + 2 ≤ fuel + d → d ≤ D + 1 → fw (get_one_loop (n := n) dec D fuel k d fl l) 0 (λ _ _, True).
  Proof.
    revert d fl l. induction fuel as [|fuel IH]; intros d fl l Hf Hd; [lia|]. cbn [get_one_loop].
    destruct (Nat.ltb_spec D d) as [|Hd']; [done|]. apply bw_bind, fw_get. intros [nd|]; [|done].
    destruct (var nd) as [cnt zero one si bk|lk ld|e].
    - destruct fl; [done|]. apply bw_bind, bw_lift. intros m _. apply bw_bind, bw_lift. intros ds _.
      destruct ds; [done|]. apply bw_bind, bw_lift. intros z _. apply IH; lia.
    - destruct fl; [done|]. destruct (decide (lk = k)); [|done]. apply IH; lia.
    - destruct fl; [|done]. apply bw_bind, bw_lift. done.
  Qed.
  Lemma gen_proof_loop_fw fuel (k : arr n) d fl acc l : D + 2 ≤ fuel + d → d ≤ D + 1 →
    fw (gen_proof_loop D fuel k d fl acc l) (ch + (if fl : bool then 0 else ch)) (λ _ _, True).
  Proof.
    revert d fl acc l. induction fuel as [|fuel IH]; intros d fl acc l Hf Hd; [lia|]. cbn [gen_proof_loop].
    destruct (Nat.ltb_spec D d) as [|Hd']; [done|]. apply bw_bind, fw_get. intros [nd|]; [|done].
    destruct (var nd) as [cnt zero one si bk|lk ld|e].
    - destruct fl; [done|]. apply bw_bind, bw_lift. intros m _. apply bw_bind, bw_lift. intros ds _.
      destruct ds; [done|]. apply bw_bind, bw_lift. intros [|] _; apply (IH _ false); lia.
    - destruct fl; [done|]. destruct (decide (lk = k)); [|done]. apply bw_bind, bw_hash. intros h.
      replace ch with (ch + 0) at 2 by lia. apply (IH _ true); lia.
    - destruct fl; [|done]. by apply bw_bind, bw_hash.
  Qed.
  Lemma verify_fold_bw cg (cur : arr n) items b (Q : arr n → nat → Prop) : (∀ c, Q c b) →
    bw cg cp ch cf (verify_fold cur items) (length items * ch + b) Q.
  Proof.
    revert cur b Q. induction items as [|[h d] items IH]; intros cur b Q HQ; [apply HQ|]. cbn [verify_fold length].
    replace (S (length items) * ch + b) with (ch + (length items * ch + b)) by lia. apply bw_bind, bw_hash. intros c. by apply IH.
  Qed.
  Lemma verify_bw cg root k v (proof : list (arr n * bool)) :
    bw cg cp ch cf (verify_inclusion_proof enc root k v proof) (length proof * ch) (λ _ _, True).
  Proof.
    unfold verify_inclusion_proof. destruct proof as [|p0 [|p1 items]]; [done..|]. cbn [length].
    replace (S (S (length items)) * ch) with (ch + (ch + (length items * ch + 0))) by lia.
    apply bw_bind, bw_lift. intros e _. apply bw_bind, bw_hash. intros h. destruct (decide _); [|done].
    apply bw_bind, bw_hash. intros h'. destruct (decide _); [|done]. apply bw_bind, verify_fold_bw. intros c. by destruct (decide _).
  Qed.
End ReadWork.

Section CallWork.
  Context {n : nat} (B : backend n) (H : list bytes → arr n) {V : Type} (enc : V → res bytes) (dec : bytes → res V).
  Theorem insert_work (Hn : 0 < n) st D prev (ks : list (arr n)) vs : let p := insert enc D prev ks vs in
    fetches B H p st ≤ 1 + 2 * length ks * (D + 3) ∧ writes B H p st ≤ 3 * length ks * (D + 3) ∧
    length (hlog B H p st) ≤ length ks * (D + 5) ∧ flushes B H p st ≤ 8 * n ∧ deletes B H p st = 0.
  Proof.
    cbv zeta.
    destruct (bw_run _ _ _ _ _ _ _ B H st (insert_bw 1 0 0 0 enc D Hn prev ks vs)) as [H1 H0].
    destruct (bw_run _ _ _ _ _ _ _ B H st (insert_bw 0 1 0 0 enc D Hn prev ks vs)) as [H2 _].
    destruct (bw_run _ _ _ _ _ _ _ B H st (insert_bw 0 0 1 0 enc D Hn prev ks vs)) as [H3 _].
    destruct (bw_run _ _ _ _ _ _ _ B H st (insert_bw 0 0 0 1 enc D Hn prev ks vs)) as [H4 _].
    split_and!; [lia..|done].
  Qed.
  Theorem read_work st D root (ks : list (arr n)) k v (proof : list (arr n * bool)) :
    (let p := get dec D root ks in
       fetches B H p st ≤ 1 + 2 * length ks * (D + 2) ∧ hlog B H p st = [] ∧ writes B H p st + flushes B H p st + deletes B H p st = 0) ∧
    (let p := get_one dec D root k in
       fetches B H p st ≤ D + 1 ∧ hlog B H p st = [] ∧ writes B H p st + flushes B H p st + deletes B H p st = 0) ∧
    (let p := generate_inclusion_proof D root k in
       fetches B H p st ≤ D + 1 ∧ length (hlog B H p st) ≤ 2 ∧ writes B H p st + flushes B H p st + deletes B H p st = 0) ∧
    (let p := verify_inclusion_proof enc root k v proof in
       fetches B H p st = 0 ∧ length (hlog B H p st) ≤ length proof ∧ writes B H p st + flushes B H p st + deletes B H p st = 0).
  Proof.
    destruct (calls_terminate B H enc dec st) as (G1 & G2 & G3 & _).
    cbv zeta. split_and!.
    - apply G1.
    - apply length_zero_iff_nil. destruct (bw_run _ _ _ _ _ _ _ B H st (get_fw dec 1 1 1 D root ks)) as [H1 H0]. lia.
    - destruct (bw_run _ _ _ _ _ _ _ B H st (get_fw dec 1 1 1 D root ks)) as [H1 H0]. lia.
    - apply G2.
    - apply length_zero_iff_nil. unfold get_one.
      destruct (bw_run _ _ _ _ _ _ _ B H st (get_one_loop_fw dec 1 1 1 D (D + 2) k 0 false root ltac:(lia) ltac:(lia))) as [H1 H0]. lia.
    - unfold get_one.
      destruct (bw_run _ _ _ _ _ _ _ B H st (get_one_loop_fw dec 1 1 1 D (D + 2) k 0 false root ltac:(lia) ltac:(lia))) as [H1 H0]. lia.
    - apply G3.
    - unfold generate_inclusion_proof.
      destruct (bw_run _ _ _ _ _ _ _ B H st (gen_proof_loop_fw 3 1 3 D (D + 2) k 0 false [] root ltac:(lia) ltac:(lia))) as [H1 H0]. lia.
    - unfold generate_inclusion_proof.
      destruct (bw_run _ _ _ _ _ _ _ B H st (gen_proof_loop_fw 3 1 3 D (D + 2) k 0 false [] root ltac:(lia) ltac:(lia))) as [H1 H0]. lia.
    - destruct (bw_run _ _ _ _ _ _ _ B H st (verify_bw enc 1 0 1 1 root k v proof)) as [H1 H0]. lia.
    - destruct (bw_run _ _ _ _ _ _ _ B H st (verify_bw enc 0 1 0 0 root k v proof)) as [H1 H0]. lia.
    - destruct (bw_run _ _ _ _ _ _ _ B H st (verify_bw enc 1 0 1 1 root k v proof)) as [H1 H0]. lia.
  Qed.
End CallWork.

(** ** Removal *)
Section RemoveWork.
  Context {n : nat} (B : backend n) (H : list bytes → arr n).
  Implicit Types (st : b_st B) (q : list (arr n)).
  Lemma remove_loop_work fuel q st :
    fetches B H (remove_loop fuel q) st ≤ length q + 2 * deletes B H (remove_loop fuel q) st ∧
    writes B H (remove_loop fuel q) st + deletes B H (remove_loop fuel q) st ≤ fetches B H (remove_loop fuel q) st ∧
    hlog B H (remove_loop fuel q) st = [] ∧ flushes B H (remove_loop fuel q) st ≤ 1.
  Proof.
    unfold hlog. revert q st. induction fuel as [|fuel IH]; intros q st; (destruct q as [|l q]; [cbn; split_and!; [lia..|done|lia]|]).
    { cbn. split_and!; [lia..|done|lia]. }
    cbn [remove_loop length]. cbn [mbind prog_bind pbind get_node run fetches writes deletes flushes].
    destruct (b_vis B st !! l) as [nd|].
    2:{ destruct (IH q st) as (? & ? & ? & ?). split_and!; [lia..|done|lia]. }
    destruct (refs nd - 1 =? 0).
    - destruct (var nd) as [cnt zero one si bk|lk ld|e];
        cbn [mbind prog_bind pbind db_remove run fetches writes deletes flushes].
      + destruct (IH (q ++ [zero; one]) (b_del B st l)) as (H1 & ? & ? & ?). rewrite app_length in H1. cbn in H1.
        split_and!; [lia..|done|lia].
      + destruct (IH (q ++ [ld]) (b_del B st l)) as (H1 & ? & ? & ?). rewrite app_length in H1. cbn in H1.
        split_and!; [lia..|done|lia].
      + destruct (IH q (b_del B st l)) as (H1 & ? & ? & ?). split_and!; [lia..|done|lia].
    - cbn [mbind prog_bind pbind db_insert run fetches writes deletes flushes].
      destruct (IH q (b_put B st l (Node (refs nd - 1) (var nd)))) as (H1 & ? & ? & ?). split_and!; [lia..|done|lia].
  Qed.
End RemoveWork.
Lemma remove_freed_hash {n} H fuel q (st : db n) : out (hash_db n) H (remove_loop fuel q) st = ROk tt →
  size (fin (hash_db n) H (remove_loop fuel q) st) + deletes (hash_db n) H (remove_loop fuel q) st = size st.
Proof.
  unfold out, fin. revert q st. induction fuel as [|fuel IH]; intros q st; (destruct q as [|l q]; [cbn; lia|]); [done|].
  cbn [remove_loop]. cbn [mbind prog_bind pbind get_node run deletes b_vis hash_db].
  destruct (st !! l) as [nd|] eqn:Hl; [|apply IH]. destruct (refs nd - 1 =? 0).
  - assert (size st = S (size (delete l st))) as Hs by (exact (size_del (hash_db n) st l nd Hl)).
    destruct (var nd) as [cnt zero one si bk|lk ld|e];
      cbn [mbind prog_bind pbind db_remove run deletes b_del hash_db]; intros Ho; specialize (IH _ _ Ho); lia.
  - cbn [mbind prog_bind pbind db_insert run deletes b_put hash_db]. intros Ho. rewrite (IH _ _ Ho).
    by rewrite map_size_insert, Hl.
Qed.
Lemma apply_batch_size {n} (m : db n) b : (∀ l, l ∈ b.*1 → is_Some (m !! l)) → size (apply_batch m b) = size m.
Proof.
  unfold apply_batch. revert m. induction b as [|[l nd] b IH]; intros m Hb; [done|]. cbn [foldl fst snd].
  destruct (Hb l) as [nd' Hl]; [left|]. rewrite IH.
  - by rewrite map_size_insert, Hl.
  - intros l' Hl'. destruct (decide (l = l')) as [->|]; [rewrite lookup_insert; by eexists|].
    rewrite lookup_insert_ne by done. apply Hb. by right.
Qed.
Lemma remove_freed_rocks {n} H fuel q (st : rocks_st n) :
  (∀ l, l ∈ (pending st).*1 → ∃ nd, committed st !! l = Some nd ∧ refs nd - 1 ≠ 0) →
  out (rocks_db n) H (remove_loop fuel q) st = ROk tt →
  size (committed (fin (rocks_db n) H (remove_loop fuel q) st)) + deletes (rocks_db n) H (remove_loop fuel q) st = size (committed st).
Proof.
  unfold out, fin. revert q st. induction fuel as [|fuel IH]; intros q st Hp; (destruct q as [|l q];
    [cbn; intros _; rewrite apply_batch_size; [lia|]; intros l' Hl'; destruct (Hp l' Hl') as (nd & ? & _); by eexists|]); [done|].
  cbn [remove_loop]. cbn [mbind prog_bind pbind get_node run deletes b_vis rocks_db].
  destruct (committed st !! l) as [nd|] eqn:Hl; [|by apply IH]. destruct (Nat.eqb_spec (refs nd - 1) 0) as [Hr|Hr].
  - assert (size (committed st) = S (size (delete l (committed st)))) as Hs by (exact (size_del (rocks_db n) st l nd Hl)).
    assert (∀ l', l' ∈ (pending (b_del (rocks_db n) st l)).*1 → ∃ nd, committed (b_del (rocks_db n) st l) !! l' = Some nd ∧ refs nd - 1 ≠ 0) as Hp'.
    { cbn. intros l' Hl'. destruct (Hp l' Hl') as (nd' & Hnd' & Hr'). exists nd'. split; [|done].
      rewrite lookup_delete_ne; [done|]. intros <-. congruence. }
    destruct (var nd) as [cnt zero one si bk|lk ld|e];
      cbn [mbind prog_bind pbind db_remove run deletes]; intros Ho; specialize (IH _ _ Hp' Ho); cbn in *; lia.
  - cbn [mbind prog_bind pbind db_insert run deletes]. intros Ho. rewrite (IH _ _); [done| |exact Ho].
    cbn. intros l'. rewrite fmap_app. intros [Hl'|Hl']%elem_of_app; [by apply Hp|].
    cbn in Hl'. apply elem_of_list_singleton in Hl' as ->. by exists nd.
Qed.
(** [b_flush B st = st]: nothing is queued. *)
Theorem remove_work {n} (B : backend n) H st root : B = hash_db n ∨ B = rocks_db n → b_flush B st = st →
  let p := remove_prog B st root in
  fetches B H p st ≤ 1 + 2 * deletes B H p st ∧ writes B H p st + deletes B H p st ≤ fetches B H p st ∧
  hlog B H p st = [] ∧ flushes B H p st ≤ 1 ∧ size (b_vis B (fin B H p st)) + deletes B H p st = size (b_vis B st).
Proof.
  intros HB Hf. cbv zeta. pose proof (remove_loop_work B H (3 * size (b_vis B st) + 2) [root] st) as (H1 & H2 & H3 & H4).
  unfold remove_prog, remove in *. split_and!; [exact H1|exact H2|exact H3|exact H4|].
  destruct HB as [->| ->].
  - apply remove_freed_hash. exact (proj1 (remove_total (hash_db n) H st root)).
  - apply remove_freed_rocks; [|exact (proj1 (remove_total (rocks_db n) H st root))]. destruct st as [c pd]. cbn in Hf |- *.
    injection Hf as _ <-. cbn. by intros l ?%elem_of_nil.
Qed.
