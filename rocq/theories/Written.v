(** * Where the values come from
    Whatever happened to a database, a value that is read for a key is one that was
    handed to an insertion together with that key. *)
From Coq Require Import Strings.Byte NArith.
From stdpp Require Import prelude countable gmap sorting strings.
From Verif Require Import Model Spec Bits Util Trie Store Logic Build Route Reads Insert Update Get Hist Claims RefCount Live Struct Weak
  Total Machine Counts Wild Lost.

Local Open Scope nat_scope.

(** ** Definitions used in the statements *)
Section WroteDef.
  Context {n : nat} (B : backend n) (H : list bytes → arr n).
  Context {V : Type} (enc : V → res bytes) (dec : bytes → res V).
  (** The pairs given to a call. *)
  Definition gives (c : call n V) : list (arr n * V) :=
    match c with
    | CInsert D prev ks vs => zip ks vs
    | CInsertOne D prev k v => [(k, v)]
    | _ => []
    end.
  (** The histories of [wild], with the pairs [ws] given to insertions so far. *)
  Inductive wrote : b_st B → list (list bytes) → list (arr n * V) → Prop :=
  | wrote_init : wrote (b_init B) [] []
  | wrote_call st lg ws c st' :
      wrote st lg ws → st' ∈ states B H (exec enc dec c) st →
      wrote st' (lg ++ hlog B H (exec enc dec c) st) (ws ++ gives c)
  | wrote_remove st lg ws r st' :
      wrote st lg ws → st' ∈ states B H (remove_prog B st r) st → wrote st' lg ws
  | wrote_fault st lg ws c i :
      wrote st lg ws →
      wrote (run_fault B H i (exec enc dec c) st).2 (lg ++ hlog B H (exec enc dec c) st) (ws ++ gives c)
  | wrote_restart st lg ws : wrote st lg ws → wrote (b_drop B st) lg ws
  | wrote_lose st lg ws l : wrote st lg ws → wrote (b_del B st l) lg ws.
  Lemma wrote_wild st lg ws : wrote st lg ws → wild B H enc dec st lg.
  Proof.
    induction 1; [constructor|by apply wild_call|by eapply wild_remove|by apply wild_fault|by apply wild_restart|by apply wild_lose].
  Qed.
  Lemma wild_wrote st lg : wild B H enc dec st lg → ∃ ws, wrote st lg ws.
  Proof.
    induction 1 as [|st lg c st' _ [ws Hw] Hst|st lg r st' _ [ws Hw] Hst|st lg c i _ [ws Hw]|st lg _ [ws Hw]|st lg l _ [ws Hw]].
    - eexists. constructor.
    - eexists. by apply wrote_call.
    - eexists. by eapply wrote_remove.
    - eexists. by apply wrote_fault.
    - eexists. by apply wrote_restart.
    - eexists. by apply wrote_lose.
  Qed.
End WroteDef.

(** ** The strings an insertion hashes *)
Section Says.
  Context {n : nat} (P : list bytes → Prop).
  (** Whatever is answered, every string that is hashed has [P]. *)
  Fixpoint says {A} (p : prog n A) : Prop :=
    match p with
    | Ret _ | Throw _ | Panic | Fuel => True
    | Hash cs k => P cs ∧ ∀ h, says (k h)
    | Get l k => ∀ o, says (k o)
    | Put _ _ k | Del _ k | Flush k => says k
    end.
  Lemma says_bind {A C} (p : prog n A) (f : A → prog n C) : says p → (∀ a, says (f a)) → says (p ≫= f).
  Proof.
    change (p ≫= f) with (pbind f p). intros Hp Hf.
    induction p as [a|e| | |cs k IH|l k IH|l nd k IH|l k IH|k IH]; cbn [says pbind] in *; auto; try done.
    destruct Hp as [? Hp]. split; [done|]. intros h. apply IH, Hp.
  Qed.
  Lemma says_lift {A} (r : res A) : says (lift r).
  Proof. by destruct r. Qed.
  Lemma says_log {A} (p : prog n A) (B : backend n) H st : says p → ∀ x, x ∈ hlog B H p st → P x.
  Proof.
    revert st. induction p as [a|e| | |cs k IH|l k IH|l nd k IH|l k IH|k IH]; intros st Hp x; unfold hlog; cbn in *;
      try (by intros ?%elem_of_nil); try (by apply IH).
    destruct Hp as [Hcs Hk]. destruct (run B H (k (H cs)) st) as [[o st'] lg] eqn:Hr. cbn.
    intros [->|Hx]%elem_of_cons; [done|]. apply (IH (H cs) st (Hk _)). unfold hlog. by rewrite Hr.
  Qed.

  Context (HPl : ∀ (k d : arr n), P (leaf_in k d)) (HPb : ∀ a b : arr n, P (branch_in a b)).
  Context {V : Type} (enc : V → res bytes).
  Lemma insert_leaves_says vm ks : (∀ (k : arr n) v e, vm !! k = Some v → enc v = Ok e → P (data_in k e)) →
    says (insert_leaves (n := n) enc vm ks).
  Proof.
    intros HP. induction ks as [|k ks IH]; [done|]. cbn [insert_leaves]. apply says_bind; [|intros l; by apply says_bind].
    unfold insert_leaves_one. destruct (vm !! k) as [v|] eqn:Hk; [|done].
    destruct (enc v) as [e|er|] eqn:He; [|done|done]. cbn. eauto.
  Qed.
  Lemma split_nodes_says d l ks : says (split_nodes (n := n) d l ks).
  Proof.
    unfold split_nodes. cbn. intros [nd|]; [|done]. destruct ks; [|done]. by destruct (var nd).
  Qed.
  Lemma insert_leaf_says l : says (insert_leaf (n := n) l).
  Proof. unfold insert_leaf. cbn. by intros [nd|]. Qed.
  Lemma traverse_says D fuel km acc q : says (traverse_tree (n := n) D fuel km acc q).
  Proof.
    revert acc q. induction fuel as [|fuel IH]; intros acc [|c q]; cbn [traverse_tree]; try done.
    destruct (D <? cdepth c); [done|]. destruct (var (cnode c)) as [cnt zero one si bk|lk ld|e]; [| |done].
    - apply says_bind; [apply says_lift|]. intros m. apply says_bind; [destruct (m <? si); [apply says_lift|done]|].
      intros ds. destruct (_ && _).
      + cbn. apply IH.
      + apply says_bind; [apply says_lift|]. intros zo.
        apply says_bind; [apply split_nodes_says|]. intros r1. destruct (push_split r1 acc q) as [acc1 q1].
        apply says_bind; [apply split_nodes_says|]. intros r0. destruct (push_split r0 acc1 q1) as [acc0 q0]. apply IH.
    - destruct (km !! lk) as [l|]; [destruct (decide _)|]; try apply IH; apply says_bind; try apply insert_leaf_says; intros; apply IH.
  Qed.
  Lemma merge_level_says rs root lv : says (merge_level (n := n) rs root lv).
  Proof.
    revert rs root. induction lv as [|[[s p] q] lv IH]; intros rs root; [done|]. cbn [merge_level].
    apply says_bind; [|intros r; apply IH]. unfold merge_one. repeat (apply says_bind; [apply says_lift|]; intros ?). cbn. auto.
  Qed.
  Lemma merge_all_says rs root lvs : says (merge_all (n := n) rs root lvs).
  Proof.
    revert rs root. induction lvs as [|lv lvs IH]; intros rs root; [done|]. cbn [merge_all].
    apply says_bind; [|intros r; apply IH]. unfold merge_nodes. by apply says_bind; [apply merge_level_says|].
  Qed.
  Lemma create_tree_says rs : says (create_tree (n := n) rs).
  Proof.
    unfold create_tree. destruct rs as [|r [|r' rs]]; [done|done|]. apply says_bind; [apply says_lift|]. intros items.
    apply says_bind; [apply merge_all_says|]. by intros [o|].
  Qed.
  Lemma insert_sorted_says D prev ks vm : (∀ (k : arr n) v e, vm !! k = Some v → enc v = Ok e → P (data_in k e)) →
    says (insert_sorted (n := n) enc D prev ks vm).
  Proof.
    intros HP. unfold insert_sorted. apply says_bind; [by apply insert_leaves_says|]. intros ls.
    apply says_bind; [|intros; apply create_tree_says]. destruct prev as [root|]; [|done].
    unfold generate_treerefs. cbn. intros [nd|]; [|done]. apply traverse_says.
  Qed.
End Says.

(** ** Every node holds what was given *)
Section Wrote.
  Context {n : nat} (Hn : 0 < n) (B : backend n) {HB : BackendOk B} (H : list bytes → arr n).
  Context {V : Type} (enc : V → res bytes) (dec : bytes → res V) (Hcodec : codec_ok enc dec).
  Implicit Types (st : b_st B) (lg L : list (list bytes)) (ws W : list (arr n * V)) (k : arr n) (v : V) (e : bytes).
  Notation wrote := (wrote B H enc dec).

  Definition given W (x : list bytes) : Prop := ∀ k e, x = data_in k e → ∃ v, (k, v) ∈ W ∧ enc v = Ok e.
  Definition Sw L W (x : list bytes) : Prop := x ∈ L ∧ given W x.
  Definition vgood L W st : Prop := ∃ C, 1 ≤ C ∧ cinv H (Sw L W) B C st.
  Lemma Sw_inj L W : no_collision H L → inj_on H (Sw L W).
  Proof using. intros Hc x y [Hx _] [Hy _]. by apply Hc. Qed.

  Lemma given_data W k e v : (k, v) ∈ W → enc v = Ok e → given W (data_in k e).
  Proof using. intros Hin He k' e' [-> ->]%data_in_inj. eauto. Qed.
  Lemma vgood_call L W c st : no_collision H L → (∀ x, x ∈ hlog B H (exec enc dec c) st → x ∈ L) →
    (∀ x, x ∈ gives c → x ∈ W) → vgood L W st → Forall (vgood L W) (states B H (exec enc dec c) st).
  Proof using Hn HB.
    intros Hc HL HW (C & H1 & HJ).
    assert (∀ p : prog n unit, p = exec enc dec c → says (given W) p →
      Forall (vgood L W) (states B H (exec enc dec c) st)) as Hins.
    { intros p -> Hs. apply Forall_impl with (cinv H (Sw L W) B (C + keys_of c)).
      - eapply (swp_states B H (Sw L W)); [|by apply (exec_count Hn H _ (Sw_inj L W Hc) B)|].
        + eapply cinv_mono; [..|exact HJ]; lia.
        + intros x Hx. split; [by apply HL|by eapply says_log].
      - intros st' HJ'. exists (C + keys_of c). split; [lia|done]. }
    assert (∀ p : prog n unit, p = exec enc dec c → readonly p →
      Forall (vgood L W) (states B H (exec enc dec c) st)) as Hro.
    { intros p -> Hr. apply Forall_forall. intros st' Hst'. rewrite (readonly_states B H _ st Hr st' Hst'). by exists C. }
    assert (∀ (k d : arr n), given W (leaf_in k d)) as HPl by done.
    assert (∀ a b : arr n, given W (branch_in a b)) as HPb by done.
    destruct c as [D prev ks vs|D prev k v|D root ks|D root k|D root k|root k v proof]; cbn [gives] in HW.
    - eapply Hins; [done|]. cbn [exec]. apply says_bind; [|done].
      unfold insert. destruct (negb _); [done|]. destruct (_ || _); [done|].
      apply insert_sorted_says; [done|done|]. intros k v e Hk He. eapply given_data; [|done]. by apply HW, value_map_elem.
    - eapply Hins; [done|]. cbn [exec]. apply says_bind; [|done].
      apply insert_sorted_says; [done|done|]. intros k' v' e [-> ->]%lookup_singleton_Some He.
      eapply given_data; [|done]. apply HW. by left.
    - eapply Hro; [done|]. apply readonly_bind; [apply readonly_get|done].
    - eapply Hro; [done|]. apply readonly_bind; [apply readonly_get_one|done].
    - eapply Hro; [done|]. apply readonly_bind; [apply readonly_prove|done].
    - eapply Hro; [done|]. apply readonly_verify.
  Qed.
  Theorem wrote_inv L W st lg ws : wrote st lg ws → no_collision H L → (∀ x, x ∈ lg → x ∈ L) → (∀ x, x ∈ ws → x ∈ W) →
    vgood L W st.
  Proof using Hn HB.
    intros Hw Hc.
    induction Hw as [|st lg ws c st' Hw IH Hst|st lg ws r st' Hw IH Hst|st lg ws c i Hw IH|st lg ws Hw IH|st lg ws l Hw IH]; intros HL HW.
    - exists 1. split; [lia|]. eapply cinv_mono; [..|apply cinv_init]; lia.
    - pose proof (vgood_call L W c st Hc) as Hs. rewrite Forall_forall in Hs. apply Hs; [| | |done].
      + intros x Hx. apply HL, elem_of_app. by right.
      + intros x Hx. apply HW, elem_of_app. by right.
      + apply IH; intros x Hx; [apply HL|apply HW]; apply elem_of_app; by left.
    - destruct (IH HL HW) as (C & H1 & HJ). exists C. split; [done|].
      assert (Forall (cinv H (Sw L W) B C) (states B H (remove_prog B st r) st)) as Hs.
      { eapply (swp_states B H (Sw L W)); [done|by apply remove_count|].
        unfold remove_prog, remove. rewrite remove_no_hash. by intros x ?%elem_of_nil. }
      rewrite Forall_forall in Hs. by apply Hs.
    - assert (vgood L W st) as Hg by (apply IH; intros x Hx; [apply HL|apply HW]; apply elem_of_app; by left).
      pose proof (vgood_call L W c st Hc) as Hs. rewrite Forall_forall in Hs.
      assert (∀ st', st' ∈ states B H (exec enc dec c) st → vgood L W st') as Hs'.
      { intros st' Hst'. apply Hs; [| |done|done].
        - intros x Hx. apply HL, elem_of_app. by right.
        - intros x Hx. apply HW, elem_of_app. by right. }
      destruct (run_fault_states B H i (exec enc dec c) st) as [Hin|(st' & Hin & ->)]; [by apply Hs'|].
      destruct (Hs' st' Hin) as (C & H1 & HJ). exists C. split; [done|by apply cinv_drop].
    - destruct (IH HL HW) as (C & H1 & HJ). exists C. split; [done|by apply cinv_drop].
    - destruct (IH HL HW) as (C & H1 & HJ). exists C. split; [done|by apply cinv_del].
  Qed.

  Lemma leaf_pre S0 (t : trie n) k e : (k, e) ∈ tleaves t → Forall S0 (tpre H t) → S0 (data_in k e).
  Proof using.
    intros Hke Hpre. induction t as [k1 e1|a IHa b IHb]; cbn [tleaves tpre] in *.
    - apply elem_of_list_singleton in Hke as [= -> ->]. by apply Forall_cons in Hpre as [? _].
    - apply Forall_cons in Hpre as [_ Hpre]. apply Forall_app in Hpre as [? ?].
      apply elem_of_app in Hke as [?|?]; auto.
  Qed.
  Lemma given_val L W k e v : Sw L W (data_in k e) → dec e = Ok v → (k, v) ∈ W.
  Proof using Hcodec.
    intros [_ Hg] Hd. destruct (Hg k e eq_refl) as (v' & Hin & He).
    pose proof (dec_enc _ _ Hcodec v' e He). congruence.
  Qed.

  (** [get_one] *)
  Lemma get_one_given L W D fuel k d fl l st v : no_collision H L → shallow H (Sw L W) (b_vis B st) →
    (fl = true → ∃ e, l = H (data_in k e) ∧ Sw L W (data_in k e)) →
    out B H (get_one_loop dec D fuel k d fl l) st = ROk (Some v) → (k, v) ∈ W.
  Proof using Hn Hcodec.
    intros Hc Hs. revert d fl l. induction fuel as [|fuel IH]; intros d fl l Hfl; [done|]. cbn [get_one_loop].
    destruct (D <? d); [done|]. unfold out. cbn [get_node mbind prog_bind pbind run].
    destruct (b_vis B st !! l) as [nd|] eqn:Hl; [|done].
    destruct (Hs _ _ Hl) as (o & Ho & Hw & Hloc & Hv). destruct (var nd) as [cnt zero one si bk|lk ld|e] eqn:Hvar.
    - destruct fl; [done|]. destruct (calc_min_split_index [k] bk) as [m|er|]; [|done|done]. cbn [lift mbind prog_bind pbind].
      destruct (check_descendants [k] si bk m) as [[|x ds]|er|]; [done| |done|done]. cbn [lift mbind prog_bind pbind].
      destruct (choose_zero k si) as [z|er|]; [|done|done]. cbn [lift mbind prog_bind pbind]. by apply IH.
    - destruct fl; [done|]. destruct (decide (lk = k)) as [->|]; [|done]. apply IH. intros _.
      destruct o as [[k0 e0|a b]|k0 e0]; cbn in Hv; simplify_eq. exists e0. split; [done|].
      eapply (leaf_pre _ (TLeaf k e0)); [by left|exact Ho].
    - destruct fl; [|done]. cbn [negb]. destruct (Hfl eq_refl) as (e' & -> & HS).
      destruct (shallow_at H (Sw L W) (Sw_inj L W Hc) (b_vis B st) (OD k e') nd Hs) as [Hv' _]; [by apply Forall_singleton|done|].
      rewrite Hvar in Hv'. cbn in Hv'. injection Hv' as ->.
      destruct (dec e') as [v'|er|] eqn:He; [|done|done]. intros [= ->]. by eapply given_val.
  Qed.
  Lemma wrote_shallow L st lg ws : wrote st lg ws → no_collision H L → (∀ x, x ∈ lg → x ∈ L) →
    shallow H (Sw L ws) (b_vis B st).
  Proof using Hn HB. intros Hw Hc HL. by destruct (wrote_inv L ws st lg ws Hw Hc HL ltac:(done)) as (C & _ & [[? _] _]). Qed.
  Theorem wrote_get_one st lg ws D r k v : wrote st lg ws → no_collision H lg →
    out B H (get_one dec D r k) st = ROk (Some v) → (k, v) ∈ ws.
  Proof using Hn HB Hcodec.
    intros Hw Hc. apply (get_one_given lg ws); [done|by eapply wrote_shallow|done].
  Qed.
  (** [get] *)
  Theorem wrote_get st lg ws D r ks lm k v : wrote st lg ws → no_collision H lg →
    out B H (get dec D r ks) st = ROk lm → lm !! k = Some (Some v) → k ∈ ks ∧ (k, v) ∈ ws.
  Proof using Hn HB Hcodec.
    intros Hw Hc Hout Hk. pose proof (wrote_shallow lg st lg ws Hw Hc ltac:(done)) as Hs.
    assert (∀ k, generate_leaf_map (V := V) ks !! k ≠ Some (Some v)) as Hlm.
    { intros k0 Hk0. revert Hk0. unfold generate_leaf_map. clear. intros Hk0.
      assert (∀ (m : gmap (arr n) (option V)), m !! k0 ≠ Some (Some v) → foldl (λ m k, <[k := None]> m) m ks !! k0 ≠ Some (Some v)) as Hx.
      { clear. induction ks as [|k ks IH]; intros m Hm; [done|]. cbn. apply IH.
        destruct (decide (k = k0)) as [->|]; [by rewrite lookup_insert|by rewrite lookup_insert_ne]. }
      eapply Hx; [|exact Hk0]. by rewrite lookup_empty. }
    destruct (b_vis B st !! r) as [nd|] eqn:Hr.
    - destruct (Hs _ _ Hr) as (o & Ho & Hwf & <- & Hv). destruct o as [t|k0 e0].
      + pose proof (get_lost Hn B H _ (Sw_inj lg ws Hc) dec (dec_no_panic _ _ Hcodec) D st t ks Hs Ho Hwf) as Hg.
        cbn [oloc] in Hout. rewrite Hout in Hg. destruct Hg as [Hd Hv']. split.
        * destruct (decide (k ∈ ks)) as [|Hni]; [done|]. apply Hd in Hni. congruence.
        * destruct (Hv' k v Hk) as (e & Hin & He). eapply given_val; [|done]. by eapply leaf_pre.
      + exfalso. revert Hout. unfold get. destruct ks as [|k1 ks]; [intros [= <-]; by rewrite lookup_empty in Hk|].
        unfold out. cbn [get_node mbind prog_bind pbind run]. rewrite Hr.
        unfold traverse_fuel. rewrite Nat.add_1_r. cbn [get_loop cdepth cnode]. rewrite <- Hv.
        destruct (D <? 0); done.
    - exfalso. revert Hout. unfold get. destruct ks as [|k1 ks]; [intros [= <-]; by rewrite lookup_empty in Hk|].
      unfold out. cbn [get_node mbind prog_bind pbind run]. rewrite Hr. intros [= <-]. by apply (Hlm k).
  Qed.
  (** Proofs *)
  Theorem wrote_proof st lg ws r nd k v proof (B' : backend n) (st' : b_st B') : wrote st lg ws → b_vis B st !! r = Some nd →
    no_collision H (lg ++ hlog B' H (verify_inclusion_proof enc r k v proof) st') →
    out B' H (verify_inclusion_proof enc r k v proof) st' = ROk tt → (k, v) ∈ ws.
  Proof using Hn HB Hcodec.
    intros Hw Hr Hc Hout. set (L := lg ++ _) in *.
    pose proof (wrote_shallow L st lg ws Hw Hc ltac:(intros; apply elem_of_app; by left)) as Hs.
    destruct (Hs _ _ Hr) as (o & Ho & Hwf & <- & Hv).
    assert (Forall (λ x, x ∈ L) (opre H o)) as HoL by (eapply Forall_impl; [exact Ho|]; by intros x [? _]).
    destruct (verify_ok_inv B' H enc _ k v proof st' Hout)
      as (e & p0 & p1 & items & Hev & -> & Hp0 & Hp1 & Hfold & Hlog).
    assert (data_in k e ∈ L) as HL1 by (apply elem_of_app; right; rewrite Hlog; by left).
    assert (leaf_in k (dloc H k e) ∈ L) as HL2 by (apply elem_of_app; right; rewrite Hlog; right; by left).
    assert (Forall (λ x, x ∈ L) (vlog H (lloc H k e) items)) as HL3.
    { apply Forall_forall. intros x Hx. apply elem_of_app. right. rewrite Hlog. right. by right. }
    destruct o as [t|k0 e0].
    - assert ((k, e) ∈ tleaves t) as Hin by (by eapply (vfold_sound H (λ x, x ∈ L) items)).
      destruct (leaf_pre _ t k e Hin Ho) as [_ Hg]. destruct (Hg k e eq_refl) as (v' & Hv' & He').
      pose proof (dec_enc _ _ Hcodec v e Hev). pose proof (dec_enc _ _ Hcodec v' e He'). congruence.
    - exfalso. cbn in Hfold, HoL. apply Forall_cons in HoL as [HL0 _]. unfold dloc in Hfold. clear -Hc Hfold HL0 HL2 HL3.
      destruct items as [|[h b] items _] using rev_ind.
      + cbn in Hfold. unfold lloc in Hfold. by specialize (Hc _ _ HL0 HL2 Hfold).
      + rewrite vlog_app in HL3. rewrite vfold_app in Hfold. cbn in HL3, Hfold. apply Forall_app in HL3 as [_ [HL3 _]%Forall_cons].
        specialize (Hc _ _ HL0 HL3 Hfold). by destruct b.
  Qed.
  (** What is below any location. *)
  Theorem wrote_below st lg ws r k e : wrote st lg ws → no_collision H lg →
    pair_below (b_vis B st) r k e → ∃ v, (k, v) ∈ ws ∧ enc v = Ok e.
  Proof using Hn HB.
    intros Hw Hc (l & d & rf & rf' & _ & Hl & Hd). pose proof (wrote_shallow lg st lg ws Hw Hc ltac:(done)) as Hs.
    destruct (Hs _ _ Hl) as (o & Ho & _ & _ & Hv). destruct o as [[k0 e0|a b]|k0 e0]; cbn in Hv; simplify_eq.
    assert (Sw lg ws (data_in k e0)) as HS by (eapply (leaf_pre _ (TLeaf k e0)); [by left|exact Ho]).
    destruct (shallow_at H (Sw lg ws) (Sw_inj lg ws Hc) (b_vis B st) (OD k e0) (Node rf' (VData e)) Hs) as [Hv' _]; [by apply Forall_singleton|done|].
    cbn in Hv'. injection Hv' as ->. by apply (proj2 HS).
  Qed.
End Wrote.
