(** * Facts that follow from the shape of the programs alone
    No assumption on the hash, the arguments or the database: which strings are
    hashed, and how reference counts grow. *)
From Coq Require Import Strings.Byte NArith.
From stdpp Require Import prelude countable gmap sorting strings.
From Verif Require Import Model Bits Spec Util Trie Store Logic.

Local Open Scope nat_scope.

(** The strings a tree hashes. *)
Definition node_string (n : nat) (cs : list bytes) : Prop :=
  (∃ (k : arr n) (e : bytes), cs = data_in k e) ∨
  (∃ k d : arr n, cs = leaf_in k d) ∨
  (∃ z o : arr n, cs = branch_in z o).

(** ** Concatenation loses nothing *)
Lemma arr_app_inj {n} (a b : arr n) (x y : bytes) : arr_list a ++ x = arr_list b ++ y → a = b ∧ x = y.
Proof.
  intros He. apply app_inj_1 in He as [Ha Hx].
  - split; [by apply arr_inj|done].
  - transitivity n; [apply (proj2_sig a)|symmetry; apply (proj2_sig b)].
Qed.
Theorem concat_inj n cs cs' : node_string n cs → node_string n cs' → concat cs = concat cs' → cs = cs'.
Proof.
  intros [(k & e & ->)|[(k & d & ->)|(z & o & ->)]] [(k' & e' & ->)|[(k' & d' & ->)|(z' & o' & ->)]];
    unfold data_in, leaf_in, branch_in; cbn [concat app]; rewrite ?app_nil_r; intros He;
    try discriminate; injection He as He; apply arr_app_inj in He as [-> He].
  - by subst.
  - by apply arr_inj in He as ->.
  - by apply arr_inj in He as ->.
Qed.

Section Struct.
  Context {n : nat}.

  (** [strok R Q p]: provided the nodes read have reference counts at most [R],
      [p] only hashes node strings and its [i]-th write has a reference count of
      at most [R + i]. *)
  Fixpoint strok {A} (R : nat) (Q : nat → A → Prop) (p : prog n A) : Prop :=
    match p with
    | Ret a => Q R a
    | Throw _ | Panic | Fuel => True
    | Hash cs k => node_string n cs ∧ ∀ h, strok R Q (k h)
    | Get l k => ∀ o, (∀ nd, o = Some nd → refs nd ≤ R) → strok R Q (k o)
    | Put l nd k => refs nd ≤ S R ∧ strok (S R) Q k
    | Del l k => strok R Q k
    | Flush k => strok R Q k
    end.

  Lemma strok_weaken {A} R (Q Q' : nat → A → Prop) p :
    strok R Q p → (∀ R' a, R ≤ R' → Q R' a → Q' R' a) → strok R Q' p.
  Proof using.
    revert R. induction p as [a|e| | |cs k IH|l k IH|l nd k IH|l k IH|k IH]; intros R; cbn; try done.
    - intros Hq Hi. auto.
    - intros [? Hq] Hi. split; [done|]. intros h. by eapply IH.
    - intros Hq Hi o Ho. by eapply IH; [apply Hq|].
    - intros [? Hq] Hi. split; [done|]. eapply IH; [done|]. intros. apply Hi; [lia|done].
    - intros Hq Hi. by eapply IH.
    - intros Hq Hi. by eapply IH.
  Qed.
  Lemma strok_bind {A C} R (Q : nat → A → Prop) (Q' : nat → C → Prop) (p : prog n A) (f : A → prog n C) :
    strok R Q p → (∀ R' a, R ≤ R' → Q R' a → strok R' Q' (f a)) → strok R Q' (p ≫= f).
  Proof using.
    revert R. induction p as [a|e| | |cs k IH|l k IH|l nd k IH|l k IH|k IH]; intros R; cbn; try done.
    - intros Hq Hi. auto.
    - intros [? Hq] Hi. split; [done|]. intros h. by eapply IH.
    - intros Hq Hi o Ho. by eapply IH; [apply Hq|].
    - intros [? Hq] Hi. split; [done|]. eapply IH; [done|]. intros. apply Hi; [lia|done].
    - intros Hq Hi. by eapply IH.
    - intros Hq Hi. by eapply IH.
  Qed.
  Lemma strok_lift {A} R (Q : nat → A → Prop) (r : res A) : (∀ a, r = Ok a → Q R a) → strok R Q (lift r).
  Proof using. destruct r; cbn; auto. Qed.
  Lemma strok_hash {A} R (Q : nat → A → Prop) cs f :
    node_string n cs → (∀ h, strok R Q (f h)) → strok R Q (hash cs ≫= f).
  Proof using. intros Hc Hf. split; [done|]. intros h. apply Hf. Qed.
  Lemma strok_get {A} R (Q : nat → A → Prop) l f :
    (∀ o, (∀ nd, o = Some nd → refs nd ≤ R) → strok R Q (f o)) → strok R Q (get_node l ≫= f).
  Proof using. done. Qed.
  Lemma strok_put {A} R (Q : nat → A → Prop) l nd f :
    refs nd ≤ S R → strok (S R) Q (f tt) → strok R Q (db_insert l nd ≫= f).
  Proof using. done. Qed.
  Lemma strok_lift_bind {A C} R (Q : nat → C → Prop) (r : res A) f :
    (∀ a, r = Ok a → strok R Q (f a)) → strok R Q (lift r ≫= f).
  Proof using. destruct r; cbn; auto. Qed.

  Lemma ns_data (k : arr n) e : node_string n (data_in k e).
  Proof using. left. eauto. Qed.
  Lemma ns_leaf (k d : arr n) : node_string n (leaf_in k d).
  Proof using. right. left. eauto. Qed.
  Lemma ns_branch (z o : arr n) : node_string n (branch_in z o).
  Proof using. right. right. eauto. Qed.

  Context {V : Type} (enc : V → res bytes) (dec : bytes → res V).
  Notation T := (λ _ _, True).

  Lemma insert_leaves_str R values ks : strok R T (insert_leaves enc values ks).
  Proof using.
    revert R. induction ks as [|k ks IH]; intros R; cbn [insert_leaves]; [done|].
    eapply (strok_bind _ T); [|intros R' a _ _; eapply (strok_bind _ T); [apply IH|]; done].
    unfold insert_leaves_one. destruct (values !! k); [|done].
    apply strok_lift_bind. intros e _. apply strok_hash; [apply ns_data|]. intros d.
    apply strok_hash; [apply ns_leaf|]. intros l.
    apply strok_get. intros od Hod. apply strok_get. intros ol Hol.
    apply strok_put; [|apply strok_put; [|done]]; cbn [refs].
    - destruct od as [nd|]; [|lia]. specialize (Hod nd eq_refl). lia.
    - destruct ol as [nd|]; [|lia]. specialize (Hol nd eq_refl). lia.
  Qed.

  Definition cells_le (R : nat) (q : list (@cell n)) : Prop := Forall (λ c, refs (cnode c) ≤ R) q.
  Lemma cells_le_mono R R' q : R ≤ R' → cells_le R q → cells_le R' q.
  Proof using. intros Hr Hf. eapply Forall_impl; [exact Hf|]. cbn. lia. Qed.

  Lemma split_nodes_str R d b nl :
    strok R (λ R' r, match r with inl _ => True | inr c => refs (cnode c) ≤ R' end) (split_nodes d b nl).
  Proof using.
    unfold split_nodes. apply strok_get. intros o Ho. destruct o as [nd|]; [|done].
    specialize (Ho nd eq_refl).
    destruct nl; [|done]. destruct (var nd); [| |done]; (apply strok_put; [cbn; lia|done]).
  Qed.
  Lemma insert_leaf_str R l : strok R T (insert_leaf l).
  Proof using.
    unfold insert_leaf. apply strok_get. intros [nd|] Ho; [|done].
    specialize (Ho nd eq_refl). split; [cbn; lia|done].
  Qed.
  Lemma traverse_str D fuel R km acc q : cells_le R q → strok R T (traverse_tree D fuel km acc q).
  Proof using.
    revert R acc q. induction fuel as [|fuel IH]; intros R acc q Hq.
    { destruct q; done. }
    destruct q as [|c q]; [done|]. cbn [traverse_tree].
    destruct (D <? cdepth c); [done|]. apply Forall_cons in Hq as [Hc Hq].
    destruct (var (cnode c)) as [count zero one si bk|lk ld|]; [| |done].
    - apply strok_lift_bind. intros m _.
      eapply (strok_bind _ (λ R' _, R' = R)).
      { destruct (m <? si); [by apply strok_lift|done]. }
      intros R' ds _ ->. destruct ((m <? si) && (length ds =? 0)).
      + apply strok_put; [cbn; lia|]. apply IH. by apply (cells_le_mono R); [lia|].
      + apply strok_lift_bind. intros zo _.
        eapply strok_bind; [apply split_nodes_str|]. intros R1 r1 H1 Hr1.
        assert (∃ acc1 q1, push_split r1 acc q = (acc1, q1) ∧ cells_le R1 q1) as (acc1 & q1 & -> & Hq1).
        { destruct r1; cbn; do 2 eexists; (split; [done|]).
          - by apply (cells_le_mono R).
          - apply Forall_cons. split; [done|]. by apply (cells_le_mono R). }
        eapply strok_bind; [apply split_nodes_str|]. intros R2 r2 H2 Hr2.
        assert (∃ acc2 q2, push_split r2 acc1 q1 = (acc2, q2) ∧ cells_le R2 q2) as (acc2 & q2 & -> & Hq2).
        { destruct r2; cbn; do 2 eexists; (split; [done|]).
          - by apply (cells_le_mono R1).
          - apply Forall_cons. split; [done|]. by apply (cells_le_mono R1). }
        by apply IH.
    - destruct (km !! lk) as [l|].
      + destruct (decide (l = cloc c)).
        * eapply strok_bind; [apply insert_leaf_str|]. intros R' _ HR _. apply IH. by apply (cells_le_mono R).
        * by apply IH.
      + eapply strok_bind; [apply insert_leaf_str|]. intros R' _ HR _. apply IH. by apply (cells_le_mono R).
  Qed.

  Lemma merge_one_str R rs it : strok R T (merge_one rs it).
  Proof using.
    destruct it as [[si p] nx]. unfold merge_one.
    do 4 (apply strok_lift_bind; intros ? _).
    apply strok_hash; [apply ns_branch|]. intros h. apply strok_put; [cbn; lia|done].
  Qed.
  Lemma merge_level_str R rs root level : strok R T (merge_level rs root level).
  Proof using.
    revert R rs root. induction level as [|it level IH]; intros R rs root; cbn [merge_level]; [done|].
    eapply strok_bind; [apply merge_one_str|]. intros R' r _ _. apply IH.
  Qed.
  Lemma merge_all_str R rs root levels : strok R T (merge_all rs root levels).
  Proof using.
    revert R rs root. induction levels as [|it level IH]; intros R rs root; cbn [merge_all]; [done|].
    eapply (strok_bind _ T).
    - unfold merge_nodes. eapply strok_bind; [apply merge_level_str|]. done.
    - intros R' r _ _. apply IH.
  Qed.
  Lemma create_tree_str R rs : strok R T (create_tree rs).
  Proof using.
    unfold create_tree. destruct rs as [|r [|r' rs]]; [done|done|].
    apply strok_lift_bind. intros items _. eapply strok_bind; [apply merge_all_str|].
    intros R' [l|] _ _; done.
  Qed.
  Lemma insert_sorted_str R D prev ks vm : strok R T (insert_sorted enc D prev ks vm).
  Proof using.
    unfold insert_sorted. eapply strok_bind; [apply insert_leaves_str|]. intros R1 nodes _ _.
    eapply (strok_bind _ T); [|intros; apply create_tree_str].
    destruct prev as [root|]; [|done]. unfold generate_treerefs. apply strok_get.
    intros [nd|] Ho; [|done]. apply traverse_str. apply Forall_singleton. cbn. by apply Ho.
  Qed.
  Lemma insert_str R D prev ks vs : strok R T (insert enc D prev ks vs).
  Proof using. unfold insert. do 2 (case_match; [done|]). apply insert_sorted_str. Qed.
  Lemma insert_one_str R D prev k v : strok R T (insert_one enc D prev k v).
  Proof using. apply insert_sorted_str. Qed.

  Lemma push_cell_str R q d l ks : strok R T (push_cell_if_node q d l ks).
  Proof using. unfold push_cell_if_node. apply strok_get. intros [nd|] _; [|done]. by destruct ks. Qed.
  Lemma get_loop_str D fuel R ks lm q : strok R T (get_loop dec D fuel ks lm q).
  Proof using.
    revert R lm q. induction fuel as [|fuel IH]; intros R lm q; (destruct q as [|c q]; [done|]); [done|].
    cbn [get_loop]. destruct (D <? cdepth c); [done|].
    destruct (var (cnode c)) as [count zero one si bk|lk ld|]; [| |done].
    - apply strok_lift_bind. intros m _. apply strok_lift_bind. intros ds _. destruct ds; [apply IH|].
      apply strok_lift_bind. intros zo _. eapply strok_bind; [apply push_cell_str|]. intros ? ? _ _.
      eapply strok_bind; [apply push_cell_str|]. intros ? ? _ _. apply IH.
    - apply strok_get. intros [nd|] _; [|done]. destruct (var nd); [done|done|].
      apply strok_lift_bind. intros v _. destruct (binary_search ks lk); [|apply IH].
      apply strok_lift_bind. intros k _. apply IH.
  Qed.
  Lemma get_str R D root ks : strok R T (get dec D root ks).
  Proof using.
    unfold get. destruct ks; [done|]. apply strok_get. intros [nd|] _; [|done]. apply get_loop_str.
  Qed.
  Lemma get_one_str R D root k : strok R T (get_one dec D root k).
  Proof using.
    unfold get_one. generalize (D + 2). intros fuel. generalize 0, false.
    revert root. induction fuel as [|fuel IH]; intros l d f; [done|].
    cbn [get_one_loop]. destruct (D <? d); [done|]. apply strok_get. intros [nd|] _; [|done].
    destruct (var nd) as [count zero one si bk|lk ld|e].
    - destruct f; [done|]. apply strok_lift_bind. intros m _. apply strok_lift_bind. intros ds _.
      destruct ds; [done|]. apply strok_lift_bind. intros z _. apply IH.
    - destruct f; [done|]. destruct (decide (lk = k)); [apply IH|done].
    - destruct (negb f); [done|]. by apply strok_lift_bind.
  Qed.
  Lemma gen_proof_str R D root k : strok R T (generate_inclusion_proof D root k).
  Proof using.
    unfold generate_inclusion_proof. generalize (D + 2). intros fuel. generalize 0, false, (@nil (arr n * bool)).
    revert root. induction fuel as [|fuel IH]; intros l d f acc; [done|].
    cbn [gen_proof_loop]. destruct (D <? d); [done|]. apply strok_get. intros [nd|] _; [|done].
    destruct (var nd) as [count zero one si bk|lk ld|e].
    - destruct f; [done|]. apply strok_lift_bind. intros m _. apply strok_lift_bind. intros ds _.
      destruct ds; [done|]. apply strok_lift_bind. intros [|] _; apply IH.
    - destruct f; [done|]. destruct (decide (lk = k)); [|done].
      apply strok_hash; [apply ns_leaf|]. intros h. apply IH.
    - destruct (negb f); [done|]. apply strok_hash; [apply ns_data|]. done.
  Qed.
  Lemma verify_str R root k v proof : strok R T (verify_inclusion_proof enc root k v proof).
  Proof using.
    unfold verify_inclusion_proof. destruct proof as [|p0 [|p1 items]]; [done|done|].
    apply strok_lift_bind. intros e _. apply strok_hash; [apply ns_data|]. intros dh.
    destruct (decide (dh = p0.1)); [|done]. apply strok_hash; [apply ns_leaf|]. intros lh.
    destruct (decide (lh = p1.1)); [|done].
    eapply (strok_bind _ T); [|intros; by case_decide]. clear.
    revert lh. induction items as [|[h b] items IH]; intros lh; cbn [verify_fold]; [done|].
    apply strok_hash; [destruct b; apply ns_branch|]. intros h'. apply IH.
  Qed.
  Lemma remove_str R fuel root : strok R T (remove fuel root).
  Proof using.
    unfold remove. generalize [root]. revert R. induction fuel as [|fuel IH]; intros R q.
    { destruct q; done. }
    destruct q as [|l q]; [done|]. cbn [remove_loop]. apply strok_get. intros [nd|] Ho; [|apply IH].
    specialize (Ho nd eq_refl). destruct (refs nd - 1 =? 0).
    - destruct (var nd); cbn; apply IH.
    - apply strok_put; [cbn; lia|]. apply IH.
  Qed.
  Lemma exec_str R c : strok R T (exec enc dec c).
  Proof using.
    destruct c; cbn [exec]; try (eapply (strok_bind _ T); [|done]).
    - apply insert_str.
    - apply insert_one_str.
    - apply get_str.
    - apply get_one_str.
    - apply gen_proof_str.
    - apply verify_str.
  Qed.
End Struct.

(** ** Executions *)
Section Exec.
  Context {n : nat} (B : backend n) {HB : BackendOk B} (H : list bytes → arr n).

  (** The number of nodes an execution writes. *)
  Fixpoint writes {A} (p : prog n A) (st : b_st B) : nat :=
    match p with
    | Ret _ | Throw _ | Panic | Fuel => 0
    | Hash cs k => writes (k (H cs)) st
    | Get l k => writes (k (b_vis B st !! l)) st
    | Put l nd k => S (writes k (b_put B st l nd))
    | Del l k => writes k (b_del B st l)
    | Flush k => writes k (b_flush B st)
    end.
  (** All reference counts, visible or queued, are at most [R]. *)
  Definition refs_le (R : nat) (st : b_st B) : Prop :=
    (∀ l nd, b_vis B st !! l = Some nd → refs nd ≤ R) ∧ (∀ l nd, bview st !! l = Some nd → refs nd ≤ R).

  Lemma refs_le_mono R R' st : R ≤ R' → refs_le R st → refs_le R' st.
  Proof using HB.
    intros Hr [H1 H2]. split; intros l nd Hl; [specialize (H1 l nd Hl)|specialize (H2 l nd Hl)]; lia.
  Qed.
  Lemma refs_le_put R st l nd : refs nd ≤ S R → refs_le R st → refs_le (S R) (b_put B st l nd).
  Proof using HB.
    intros Hr [H1 H2].
    assert (Hv : ∀ l' nd', bview (b_put B st l nd) !! l' = Some nd' → refs nd' ≤ S R).
    { intros l' nd'. rewrite bview_put. intros [[-> <-]|[_ Hl]]%lookup_insert_Some; [done|].
      specialize (H2 _ _ Hl). lia. }
    split; [|exact Hv]. intros l' nd' Hl. destruct (bvis_put st l nd) as [He|He]; rewrite He in Hl.
    - specialize (H1 _ _ Hl). lia.
    - by eapply Hv.
  Qed.
  Lemma refs_le_init : refs_le 0 (b_init B).
  Proof using HB. split; intros l nd; rewrite ?bvis_init, ?bview_init, lookup_empty; done. Qed.

  Lemma strok_run {A} R (Q : nat → A → Prop) (p : prog n A) st : strok R Q p → refs_le R st →
    Forall (node_string n) (hlog B H p st) ∧
    refs_le (R + writes p st) (fin B H p st) ∧
    Forall (refs_le (R + writes p st)) (states B H p st).
  Proof using HB.
    revert R st. induction p as [a|e| | |cs k IH|l k IH|l nd k IH|l k IH|k IH]; intros R st Hp Hr;
      unfold hlog, fin in *; cbn [run writes states] in *;
      try (rewrite Nat.add_0_r; cbn [fst snd]; split_and!; [by constructor|done|by apply Forall_singleton]).
    - destruct Hp as [Hc Hp]. destruct (IH (H cs) R st (Hp _) Hr) as (I1 & I2 & I3).
      destruct (run B H (k (H cs)) st) as [[o st'] lg]. split_and!; [by constructor|done|].
      constructor; [|done]. eapply refs_le_mono; [|exact Hr]. lia.
    - destruct (IH (b_vis B st !! l) R st) as (I1 & I2 & I3); [|done|].
      { apply Hp. intros nd. apply Hr. }
      split_and!; [done|done|]. constructor; [|done]. eapply refs_le_mono; [|exact Hr]. lia.
    - destruct Hp as [Hn Hp]. destruct (IH (S R) (b_put B st l nd)) as (I1 & I2 & I3); [done|by apply refs_le_put|].
      rewrite Nat.add_succ_r. cbn in I2, I3.
      split_and!; [done|done|]. constructor; [|done]. eapply refs_le_mono; [|exact Hr]. lia.
    - destruct (IH R (b_del B st l)) as (I1 & I2 & I3); [done| |].
      { destruct Hr as [H1 H2]. split; intros l' nd Hl.
        - rewrite bvis_del in Hl. apply lookup_delete_Some in Hl as [_ Hl]. by eapply H1.
        - apply bview_del_sub in Hl. by eapply H2. }
      split_and!; [done|done|]. constructor; [|done]. eapply refs_le_mono; [|exact Hr]. lia.
    - destruct (IH R (b_flush B st)) as (I1 & I2 & I3); [done| |].
      { destruct Hr as [H1 H2]. split; intros l' nd; rewrite ?bvis_flush, ?bview_flush; apply H2. }
      split_and!; [done|done|]. constructor; [|done]. eapply refs_le_mono; [|exact Hr]. lia.
  Qed.
  Lemma strok_log {A} (Q : nat → A → Prop) (p : prog n A) st :
    (∀ R, strok R Q p) → Forall (node_string n) (hlog B H p st).
  Proof using HB.
    intros Hp.
    assert (Hs : ∀ R, ∃ R', R ≤ R' ∧ ∀ l nd, b_vis B st !! l = Some nd ∨ bview st !! l = Some nd → refs nd ≤ R').
    { intros R. set (f := λ (m : db n), foldr max 0 ((refs ∘ snd) <$> map_to_list m)).
      exists (max R (max (f (b_vis B st)) (f (bview st)))). split; [lia|].
      assert (Hf : ∀ m l nd, m !! l = Some nd → refs nd ≤ f m).
      { intros m l nd Hl. apply elem_of_map_to_list in Hl. unfold f.
        induction (map_to_list m) as [|[l' nd'] q IH]; [by apply elem_of_nil in Hl|].
        apply elem_of_cons in Hl as [[= <- <-]|Hl]; cbn; [lia|]. specialize (IH Hl). cbn in IH. lia. }
      intros l nd [Hl|Hl]; apply Hf in Hl; lia. }
    destruct (Hs 0) as (R & _ & HR). eapply (strok_run R Q p st); [apply Hp|].
    split; intros l nd Hl; eapply HR; eauto.
  Qed.

  Context {V : Type} (enc : V → res bytes) (dec : bytes → res V).

  Theorem exec_refs c R st : refs_le R st →
    Forall (refs_le (R + writes (exec enc dec c) st)) (fin B H (exec enc dec c) st :: states B H (exec enc dec c) st).
  Proof using HB.
    intros Hr. destruct (strok_run R _ _ st (exec_str enc dec R c) Hr) as (_ & H1 & H2). by constructor.
  Qed.
  Theorem remove_refs root R st : refs_le R st →
    Forall (refs_le (R + writes (remove_prog B st root) st))
           (fin B H (remove_prog B st root) st :: states B H (remove_prog B st root) st).
  Proof using HB.
    intros Hr. unfold remove_prog.
    destruct (strok_run R _ _ st (remove_str R (3 * size (b_vis B st) + 2) root) Hr) as (_ & H1 & H2).
    by constructor.
  Qed.

  Lemma hist_strings st lg hs : hist B H enc dec st lg hs → Forall (node_string n) lg.
  Proof using HB.
    induction 1; [constructor| | | |]; apply Forall_app; (split; [done|]); eapply strok_log; intros R;
      first [apply insert_str|apply exec_str].
  Qed.
  Lemma rhist_strings st lg hs : rhist B H enc dec st lg hs → Forall (node_string n) lg.
  Proof using HB.
    induction 1; [constructor| |done| |]; apply Forall_app; (split; [done|]); eapply strok_log; intros R;
      first [apply insert_str|apply exec_str].
  Qed.
  Lemma strings_inj lg : Forall (node_string n) lg → ∀ x y, x ∈ lg → y ∈ lg → concat x = concat y → x = y.
  Proof using. rewrite Forall_forall. intros Hf x y Hx Hy. apply (concat_inj n); auto. Qed.
End Exec.

(** With a hash function on byte strings, applied to the concatenation of the
    chunks: a collision between the inputs of two nodes is a collision of the
    function itself. *)
Theorem chunks_collision {n} (h : bytes → arr n) (lg : list (list bytes)) :
  Forall (node_string n) lg →
  (∀ x y, x ∈ @concat byte <$> lg → y ∈ @concat byte <$> lg → h x = h y → x = y) →
  no_collision (h ∘ @concat byte) lg.
Proof.
  intros Hf Hh x y Hx Hy He. apply (strings_inj lg Hf); [done|done|].
  apply Hh; [by apply elem_of_list_fmap_1|by apply elem_of_list_fmap_1|done].
Qed.
