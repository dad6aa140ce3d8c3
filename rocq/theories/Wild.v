(** * Databases with any history
    Calls with any arguments, removals of anything at any time, interruptions,
    storage failures, restarts and lost nodes.  Nothing is assumed of the way the
    tree is used; what remains true is that a node that is in the database is the
    node its location stands for. *)
From Coq Require Import Strings.Byte NArith.
From stdpp Require Import prelude countable gmap sorting strings.
From Verif Require Import Model Spec Bits Util Trie Store Logic Build Route Reads Insert Update Get Hist Claims RefCount Live Struct Weak
  Total Machine Counts.

Local Open Scope nat_scope.

(** ** Definitions used in the statements *)
Section WildDef.
  Context {n : nat} (B : backend n) (H : list bytes → arr n).
  Context {V : Type} (enc : V → res bytes) (dec : bytes → res V).
  (** [wild st lg]: [st] is reached from a new database and [lg] are the strings
      hashed so far.  Steps:
      - any call with any arguments, complete or cut short at any point,
      - the removal of any location, complete or cut short,
      - any call in which one database operation fails,
      - a restart,
      - the loss of any node. *)
  Inductive wild : b_st B → list (list bytes) → Prop :=
  | wild_init : wild (b_init B) []
  | wild_call st lg c st' :
      wild st lg → st' ∈ states B H (exec enc dec c) st → wild st' (lg ++ hlog B H (exec enc dec c) st)
  | wild_remove st lg r st' :
      wild st lg → st' ∈ states B H (remove_prog B st r) st → wild st' lg
  | wild_fault st lg c i :
      wild st lg → wild (run_fault B H i (exec enc dec c) st).2 (lg ++ hlog B H (exec enc dec c) st)
  | wild_restart st lg : wild st lg → wild (b_drop B st) lg
  | wild_lose st lg l : wild st lg → wild (b_del B st l) lg.
End WildDef.

(** ** Every state is shallow *)
Section WildInv.
  Context {n : nat} (Hn : 0 < n) (B : backend n) {HB : BackendOk B} (H : list bytes → arr n).
  Context {V : Type} (enc : V → res bytes) (dec : bytes → res V).
  Implicit Types (st : b_st B) (lg L : list (list bytes)).
  Notation Sof L := (λ x, x ∈ L).
  Notation wild := (wild B H enc dec).
  Definition wgood L st : Prop := ∃ C, 1 ≤ C ∧ cinv H (Sof L) B C st.

  Lemma wgood_vis L st : wgood L st → shallow H (Sof L) (b_vis B st).
  Proof using. by intros (C & _ & [[? _] _]). Qed.
  Lemma wgood_call L c st : no_collision H L → (∀ x, x ∈ hlog B H (exec enc dec c) st → x ∈ L) →
    wgood L st → Forall (wgood L) (states B H (exec enc dec c) st).
  Proof using Hn.
    intros Hc HL (C & H1 & HJ). eapply Forall_impl; [by eapply (call_inv Hn B H enc dec L c C st)|].
    intros st' HJ'. exists (C + keys_of c). split; [lia|done].
  Qed.
  Theorem wild_inv L st lg : wild st lg → no_collision H L → (∀ x, x ∈ lg → x ∈ L) → wgood L st.
  Proof using Hn HB.
    intros Hw Hc.
    induction Hw as [|st lg c st' Hw IH Hst|st lg r st' Hw IH Hst|st lg c i Hw IH|st lg Hw IH|st lg l Hw IH]; intros HL.
    - exists 1. split; [lia|]. eapply cinv_mono; [..|apply cinv_init]; lia.
    - pose proof (wgood_call L c st Hc) as Hs. rewrite Forall_forall in Hs. apply Hs; [| |done].
      + intros x Hx. apply HL, elem_of_app. by right.
      + apply IH. intros x Hx. apply HL, elem_of_app. by left.
    - destruct (IH HL) as (C & H1 & HJ). exists C. split; [done|].
      pose proof (remove_inv B H L r C st HJ) as Hs. rewrite Forall_forall in Hs. by apply Hs.
    - assert (wgood L st) as Hg by (apply IH; intros x Hx; apply HL, elem_of_app; by left).
      pose proof (wgood_call L c st Hc) as Hs. rewrite Forall_forall in Hs.
      assert (∀ st', st' ∈ states B H (exec enc dec c) st → wgood L st') as Hs'.
      { intros st' Hst'. apply Hs; [|done|done]. intros x Hx. apply HL, elem_of_app. by right. }
      destruct (run_fault_states B H i (exec enc dec c) st) as [Hin|(st' & Hin & ->)]; [by apply Hs'|].
      destruct (Hs' st' Hin) as (C & H1 & HJ). exists C. split; [done|by apply cinv_drop].
    - destruct (IH HL) as (C & H1 & HJ). exists C. split; [done|by apply cinv_drop].
    - destruct (IH HL) as (C & H1 & HJ). exists C. split; [done|by apply cinv_del].
  Qed.

  Lemma fin_exec D prev (ks : list (arr n)) (vs : list V) st :
    fin B H (exec enc dec (CInsert D prev ks vs)) st = fin B H (insert enc D prev ks vs) st ∧
    hlog B H (exec enc dec (CInsert D prev ks vs)) st = hlog B H (insert enc D prev ks vs) st.
  Proof using.
    cbn [exec]. unfold fin, hlog. rewrite run_bind.
    destruct (run B H (insert enc D prev ks vs) st) as [[[a|e| |] s'] lg]; cbn; by rewrite ?app_nil_r.
  Qed.
  Lemma states_sub {A C} (p : prog n A) (f : A → prog n C) st st' : st' ∈ states B H p st → st' ∈ states B H (p ≫= f) st.
  Proof using.
    revert st. induction p as [a|e| | |cs k IH|l k IH|l nd k IH|l k IH|k IH]; intros st; cbn;
      try (by intros ?); try (intros [->|Hin]%elem_of_cons; [by left|right; by apply IH]).
    intros ->%elem_of_list_singleton. destruct (f a); by left.
  Qed.

  (** All the other histories are such histories. *)
  Lemma wild_insert st lg D prev ks vs : wild st lg →
    wild (fin B H (insert enc D prev ks vs) st) (lg ++ hlog B H (insert enc D prev ks vs) st).
  Proof using.
    intros Hw. destruct (fin_exec D prev ks vs st) as [Hf Hl]. rewrite <- Hf, <- Hl.
    apply wild_call; [done|]. apply run_in_states.
  Qed.
  Lemma hist_wild st lg hs : hist B H enc dec st lg hs → wild st lg.
  Proof using.
    induction 1 as [|st lg hs D prev M ks vs r Hh IH _ _ _|st lg hs c Hh IH|st lg hs c st' Hh IH Hin|st lg hs c i Hh IH].
    - constructor.
    - by apply wild_insert.
    - apply wild_call; [done|]. apply run_in_states.
    - apply wild_restart. by apply wild_call.
    - by apply wild_fault.
  Qed.
  Lemma whist_wild st lg hs : whist B H enc dec st lg hs → wild st lg.
  Proof using.
    induction 1 as [|st lg hs D prev M ks vs r Hh IH|st lg hs D prev M ks vs st' Hh IH ? ? ? Hin|st lg hs r M hs' st' Hh IH ? Hin
      |st lg hs c er st' Hh IH ? Hin|st lg hs c Hh IH Heq|st lg hs c st' Hh IH Hin ?|st lg hs Hh IH|st lg hs c st' Hh IH ? Hin].
    - constructor.
    - by apply wild_insert.
    - destruct (fin_exec D prev ks vs st) as [_ Hl]. rewrite <- Hl. apply wild_call; [done|]. by apply states_sub.
    - by eapply wild_remove.
    - by apply wild_call.
    - rewrite <- Heq at 1. apply wild_call; [done|]. apply run_in_states.
    - apply wild_restart. by apply wild_call.
    - by apply wild_restart.
    - by apply wild_call.
  Qed.
  Theorem live_wild st lg r M : live B H enc dec st lg r M → wild st lg.
  Proof using. intros (hs & [Hh|Hh] & _); [by eapply hist_wild|by eapply whist_wild]. Qed.
End WildInv.

(** ** Two databases *)
Section Agree.
  Context {n : nat} (H : list bytes → arr n) (S : list bytes → Prop) (Hinj : inj_on H S).
  Implicit Types (m : db n).
  Definition agree m1 m2 : Prop :=
    ∀ l nd1 nd2, m1 !! l = Some nd1 → m2 !! l = Some nd2 → var nd1 = var nd2.
  Lemma shallow_agree m1 m2 : shallow H S m1 → shallow H S m2 → agree m1 m2.
  Proof using Hinj.
    intros H1 H2 l nd1 nd2 Hl1 Hl2. destruct (H1 _ _ Hl1) as (o & Ho & _ & <- & <-).
    by destruct (shallow_at H S Hinj m2 o nd2 H2 Ho Hl2) as [-> _].
  Qed.
End Agree.

Section Sim.
  Context {n : nat} (B1 B2 : backend n) (H : list bytes → arr n).
  Definition stuck {A} (p : prog n A) : Prop := match p with Throw _ | Panic | Fuel => True | _ => False end.
  (** Two programs that read nodes with the same contents go the same way, as
      long as none of them fails. *)
  Inductive sim {A} (R : A → A → Prop) : prog n A → prog n A → Prop :=
  | sim_ret a b : R a b → sim R (Ret a) (Ret b)
  | sim_hash cs k1 k2 : (∀ h, sim R (k1 h) (k2 h)) → sim R (Hash cs k1) (Hash cs k2)
  | sim_get l k1 k2 :
      (∀ o1 o2, (∀ nd1 nd2, o1 = Some nd1 → o2 = Some nd2 → var nd1 = var nd2) → sim R (k1 o1) (k2 o2)) →
      sim R (Get l k1) (Get l k2)
  | sim_put l nd1 nd2 p q : sim R p q → sim R (Put l nd1 p) (Put l nd2 q)
  | sim_flush p q : sim R p q → sim R (Flush p) (Flush q)
  | sim_stuck_l p q : stuck p → sim R p q
  | sim_stuck_r p q : stuck q → sim R p q.
  Lemma sim_bind {A C} (R : A → A → Prop) (R' : C → C → Prop) (p q : prog n A) (f g : A → prog n C) :
    sim R p q → (∀ a b, R a b → sim R' (f a) (g b)) → sim R' (p ≫= f) (q ≫= g).
  Proof.
    intros Hs Hf. induction Hs as [a b Hab|cs k1 k2 _ IH|l k1 k2 _ IH|l nd1 nd2 p q _ IH|p q _ IH|p q Hp|p q Hq]; cbn.
    - by apply Hf.
    - by constructor.
    - by constructor.
    - by constructor.
    - by constructor.
    - apply sim_stuck_l. by destruct p.
    - apply sim_stuck_r. by destruct q.
  Qed.
  Lemma sim_lift {A} (r : res A) : sim eq (lift r) (lift r).
  Proof. destruct r; [by constructor|by apply sim_stuck_l|by apply sim_stuck_l]. Qed.

  Lemma sim_out {A} (R : A → A → Prop) (P1 : b_st B1 → Prop) (P2 : b_st B2 → Prop) p q s1 s2 a b :
    (∀ s1 s2, P1 s1 → P2 s2 → agree (b_vis B1 s1) (b_vis B2 s2)) → sim R p q →
    Forall P1 (states B1 H p s1) → Forall P2 (states B2 H q s2) →
    out B1 H p s1 = ROk a → out B2 H q s2 = ROk b → R a b.
  Proof.
    intros HP Hs. unfold out. revert s1 s2.
    induction Hs as [x y Hab|cs k1 k2 _ IH|l k1 k2 _ IH|l nd1 nd2 p q _ IH|p q _ IH|p q Hp|p q Hq]; intros s1 s2 H1 H2.
    - cbn. by intros [= <-] [= <-].
    - cbn in *. apply Forall_cons in H1 as [_ H1], H2 as [_ H2]. specialize (IH (H cs) s1 s2 H1 H2).
      destruct (run B1 H (k1 (H cs)) s1) as [[o1 s1'] lg1], (run B2 H (k2 (H cs)) s2) as [[o2 s2'] lg2]. done.
    - cbn in *. apply Forall_cons in H1 as [H1a H1], H2 as [H2a H2].
      eapply IH; [|done|done]. intros nd1 nd2. apply (HP _ _ H1a H2a).
    - cbn in *. apply Forall_cons in H1 as [_ H1], H2 as [_ H2]. by apply IH.
    - cbn in *. apply Forall_cons in H1 as [_ H1], H2 as [_ H2]. by apply IH.
    - by destruct p.
    - by destruct q.
  Qed.
End Sim.

Section InsertSim.
  Context {n : nat}.
  Context {V : Type} (enc : V → res bytes) (dec : bytes → res V).
  Implicit Types (rs : list (tref n)) (ks : list (arr n)).

  Lemma db_insert_sim l (nd1 nd2 : node n) : sim eq (db_insert l nd1) (db_insert l nd2).
  Proof. by constructor; constructor. Qed.
  Lemma insert_leaves_sim vm ks : sim eq (insert_leaves (n := n) enc vm ks) (insert_leaves enc vm ks).
  Proof.
    induction ks as [|k ks IH]; cbn [insert_leaves]; [by constructor|].
    eapply (sim_bind eq).
    - unfold insert_leaves_one. destruct (vm !! k) as [v|]; [|by apply sim_stuck_l].
      eapply (sim_bind eq); [apply sim_lift|]. intros e ? <-.
      cbn [hash get_node db_insert mbind prog_bind pbind mret prog_ret].
      constructor. intros h. constructor. intros h'. constructor. intros o1 o2 _. constructor. intros o3 o4 _.
      by do 3 constructor.
    - intros l ? <-. eapply (sim_bind eq); [done|]. intros ls ? <-. by constructor.
  Qed.
  Lemma insert_leaf_sim (l : arr n) : sim eq (insert_leaf l) (insert_leaf l).
  Proof.
    unfold insert_leaf. cbn [get_node mbind prog_bind pbind]. constructor. intros [nd1|] [nd2|] Ho.
    - by do 2 constructor.
    - by apply sim_stuck_r.
    - by apply sim_stuck_l.
    - by apply sim_stuck_l.
  Qed.
  Definition cell_like (c1 c2 : cell (n := n)) : Prop :=
    cloc c1 = cloc c2 ∧ ckeys c1 = ckeys c2 ∧ var (cnode c1) = var (cnode c2).
  Definition part_like (r1 r2 : tref n + cell (n := n)) : Prop :=
    match r1, r2 with inl t1, inl t2 => t1 = t2 | inr c1, inr c2 => cell_like c1 c2 | _, _ => False end.
  Lemma split_nodes_sim d1 d2 (b : arr n) ks : sim part_like (split_nodes d1 b ks) (split_nodes d2 b ks).
  Proof.
    unfold split_nodes. cbn [get_node mbind prog_bind pbind]. constructor. intros [nd1|] [nd2|] Ho.
    2: by apply sim_stuck_r. 2,3: by apply sim_stuck_l.
    pose proof (Ho nd1 nd2 eq_refl eq_refl) as Hv. destruct ks as [|k ks].
    - rewrite <- Hv. destruct (var nd1); cbn [db_insert mbind prog_bind pbind].
      + by do 2 constructor.
      + by do 2 constructor.
      + by apply sim_stuck_l.
    - by constructor.
  Qed.
  Lemma traverse_sim D1 D2 f1 f2 km acc q1 q2 : Forall2 cell_like q1 q2 →
    sim eq (traverse_tree D1 f1 km acc q1) (traverse_tree D2 f2 km acc q2).
  Proof.
    revert f2 acc q1 q2. induction f1 as [|f1 IH]; intros f2 acc q1 q2 Hq.
    { destruct Hq as [|c1 c2 q1 q2 Hc Hq]; [|by apply sim_stuck_l]. destruct f2; by constructor. }
    destruct Hq as [|c1 c2 q1 q2 Hc Hq]; [destruct f2; by constructor|].
    destruct f2 as [|f2]; [by apply sim_stuck_r|]. cbn [traverse_tree].
    destruct (D1 <? cdepth c1); [by apply sim_stuck_l|]. destruct (D2 <? cdepth c2); [by apply sim_stuck_r|].
    destruct Hc as (Hl & Hk & Hv). rewrite <- Hv, <- Hl, <- Hk.
    destruct (var (cnode c1)) as [count zero one si bk|lk ld|e]; [| |by apply sim_stuck_l].
    - eapply (sim_bind eq); [apply sim_lift|]. intros m ? <-.
      eapply (sim_bind eq); [destruct (m <? si); [apply sim_lift|by constructor]|]. intros ds ? <-.
      destruct ((m <? si) && (length ds =? 0)).
      + eapply (sim_bind eq); [apply db_insert_sim|]. intros _ _ _. by apply IH.
      + eapply (sim_bind eq); [apply sim_lift|]. intros zo ? <-.
        eapply sim_bind; [apply split_nodes_sim|]. intros r1 r2 Hr.
        assert (∃ acc' q1' q2', push_split r1 acc q1 = (acc', q1') ∧ push_split r2 acc q2 = (acc', q2') ∧
          Forall2 cell_like q1' q2') as (acc' & q1' & q2' & -> & -> & Hq').
        { destruct r1, r2; cbn in Hr; try done; cbn [push_split].
          - subst. by eauto 6.
          - do 3 eexists. split_and!; [done|done|]. by constructor. }
        eapply sim_bind; [apply split_nodes_sim|]. intros r3 r4 Hr'.
        assert (∃ acc2 q12 q22, push_split r3 acc' q1' = (acc2, q12) ∧ push_split r4 acc' q2' = (acc2, q22) ∧
          Forall2 cell_like q12 q22) as (acc2 & q12 & q22 & -> & -> & Hq2).
        { destruct r3, r4; cbn in Hr'; try done; cbn [push_split].
          - subst. by eauto 6.
          - do 3 eexists. split_and!; [done|done|]. by constructor. }
        by apply IH.
    - destruct (km !! lk) as [l|].
      + destruct (decide (l = cloc c1)); [|by apply IH].
        eapply (sim_bind eq); [apply insert_leaf_sim|]. intros _ _ _. by apply IH.
      + eapply (sim_bind eq); [apply insert_leaf_sim|]. intros _ _ _. by apply IH.
  Qed.
  Lemma merge_one_sim rs it : sim eq (merge_one rs it) (merge_one rs it).
  Proof.
    destruct it as [[si p] nx]. unfold merge_one.
    do 4 (eapply (sim_bind eq); [apply sim_lift|]; intros ? ? <-).
    cbn [hash db_insert mbind prog_bind pbind mret prog_ret]. constructor. intros h. by do 2 constructor.
  Qed.
  Lemma merge_level_sim rs root level : sim eq (merge_level rs root level) (merge_level rs root level).
  Proof.
    revert rs root. induction level as [|it level IH]; intros rs root; [by constructor|]. cbn [merge_level].
    eapply (sim_bind eq); [apply merge_one_sim|]. intros r ? <-. apply IH.
  Qed.
  Lemma merge_all_sim rs root levels : sim eq (merge_all rs root levels) (merge_all rs root levels).
  Proof.
    revert rs root. induction levels as [|lv levels IH]; intros rs root; [by constructor|]. cbn [merge_all].
    eapply (sim_bind eq); [|intros r ? <-; apply IH]. unfold merge_nodes.
    eapply (sim_bind eq); [apply merge_level_sim|]. intros r ? <-. by do 2 constructor.
  Qed.
  Lemma create_tree_sim rs : sim eq (create_tree rs) (create_tree rs).
  Proof.
    destruct rs as [|r [|r' rs]]; [by apply sim_stuck_l|by do 2 constructor|]. unfold create_tree.
    eapply (sim_bind eq); [apply sim_lift|]. intros items ? <-.
    eapply (sim_bind eq); [apply merge_all_sim|]. intros [root|] ? <-; [by constructor|by apply sim_stuck_l].
  Qed.
  Lemma insert_sorted_sim D1 D2 prev ks vm : sim eq (insert_sorted enc D1 prev ks vm) (insert_sorted enc D2 prev ks vm).
  Proof.
    unfold insert_sorted. eapply (sim_bind eq); [apply insert_leaves_sim|]. intros ls ? <-.
    eapply (sim_bind eq); [|intros ps ? <-; apply create_tree_sim].
    destruct prev as [root|]; [|by constructor].
    unfold generate_treerefs. cbn [get_node mbind prog_bind pbind]. constructor. intros [nd1|] [nd2|] Ho.
    2: by apply sim_stuck_r. 2,3: by apply sim_stuck_l.
    apply traverse_sim. constructor; [|done]. split_and!; try done. by apply Ho.
  Qed.
  Lemma insert_sim D1 D2 prev ks vs : sim eq (insert enc D1 prev ks vs) (insert enc D2 prev ks vs).
  Proof.
    unfold insert. destruct (negb _); [by apply sim_stuck_l|]. destruct (_ || _); [by apply sim_stuck_l|].
    apply insert_sorted_sim.
  Qed.
End InsertSim.
