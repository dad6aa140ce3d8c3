(** * What a read returns depends on the stored tree only *)
From Coq Require Import Strings.Byte NArith.
From stdpp Require Import prelude countable gmap sorting strings.
From Verif Require Import Model Bits Spec Util Trie Store Logic Build Evol Route Reads Insert Update Safe Get Hist Claims.

Local Open Scope nat_scope.

Lemma out_bind_ro {n A C} (B : backend n) H (p : prog n A) (f : A → prog n C) s : readonly p →
  out B H (p ≫= f) s =
    match out B H p s with
    | ROk a => out B H (f a) s | RErr e => RErr e | RPanic => RPanic | RFuel => RFuel
    end.
Proof.
  intros Hr. pose proof (readonly_fin B H p s Hr) as Hf. unfold out, fin in *. rewrite run_bind.
  destruct (run B H p s) as [[[a|e| |] s'] lg]; try done. simpl in *. subst s'.
  by destruct (run B H (f a) s) as [[o s''] lg'].
Qed.
Lemma out_lift {n A} (B : backend n) H (r : res A) s : out B H (lift (n := n) r) s = out_of r.
Proof. by destruct r. Qed.

Section Sim.
  Context {n : nat} (Hn : 0 < n) (B1 B2 : backend n) (H : list bytes → arr n).
  Context {V : Type} (dec : bytes → res V) (D : nat).
  Context (s1 : b_st B1) (s2 : b_st B2).
  Notation m1 := (b_vis B1 s1). Notation m2 := (b_vis B2 s2).
  Implicit Types (t : trie n) (k : arr n) (e : bytes).

  Definition csim (c1 c2 : cell (n := n)) : Prop :=
    cloc c1 = cloc c2 ∧ ckeys c1 = ckeys c2 ∧ cdepth c1 = cdepth c2 ∧
    ∃ t, stored H m1 t ∧ stored H m2 t ∧ var (cnode c1) = tvar H t ∧ var (cnode c2) = tvar H t.

  Lemma push_cell_sim q1 q2 d t ks : Forall2 csim q1 q2 → stored H m1 t → stored H m2 t →
    ∃ q1' q2', out B1 H (push_cell_if_node q1 d (troot H t) ks) s1 = ROk q1' ∧
               out B2 H (push_cell_if_node q2 d (troot H t) ks) s2 = ROk q2' ∧ Forall2 csim q1' q2'.
  Proof.
    intros Hq H1 H2.
    pose proof (stored_root _ _ _ H1) as Hr1. apply has_lookup in Hr1 as [rf1 Hr1].
    pose proof (stored_root _ _ _ H2) as Hr2. apply has_lookup in Hr2 as [rf2 Hr2].
    unfold push_cell_if_node, get_node, out. cbn [mbind prog_bind pbind run]. rewrite Hr1, Hr2.
    destruct ks as [|k ks]; cbn.
    - by exists q1, q2.
    - eexists _, _. split_and!; [done|done|]. constructor; [|done].
      split_and!; try done. exists t. by split_and!.
  Qed.
  Lemma get_loop_sim fuel keys lm q1 q2 : Forall2 csim q1 q2 →
    out B1 H (get_loop dec D fuel keys lm q1) s1 = out B2 H (get_loop dec D fuel keys lm q2) s2.
  Proof.
    revert lm q1 q2. induction fuel as [|fuel IH]; intros lm q1 q2 Hq.
    { inversion Hq; subst; done. }
    destruct Hq as [|c1 c2 q1 q2 (Hl & Hk & Hd & t & H1 & H2 & Hv1 & Hv2) Hq]; [done|].
    cbn [get_loop]. rewrite Hd. destruct (D <? cdepth c2); [done|]. rewrite Hv1, Hv2, Hk.
    destruct t as [lk le|l r]; cbn [tvar].
    - destruct H1 as [_ H1], H2 as [_ H2]. apply has_lookup in H1 as [rf1 H1], H2 as [rf2 H2].
      rewrite !out_bind_ro by (by intros o).
      unfold get_node at 1 2. unfold out at 1 3. cbn [run fst]. rewrite H1, H2. cbn [var].
      rewrite !out_bind_ro by (apply readonly_lift). rewrite !out_lift.
      destruct (dec le) as [v|er|]; [|done|done]. cbn [out_of].
      destruct (binary_search keys lk) as [i|]; [|by apply IH].
      rewrite !out_bind_ro by (apply readonly_lift). rewrite !out_lift.
      destruct (index keys i) as [k|er|]; [|done|done]. cbn [out_of]. by apply IH.
    - destruct H1 as (_ & H1l & H1r), H2 as (_ & H2l & H2r).
      rewrite !out_bind_ro by (apply readonly_lift). rewrite !out_lift.
      destruct (calc_min_split_index _ _) as [m|er|]; [|done|done]. cbn [out_of].
      rewrite !out_bind_ro by (apply readonly_lift). rewrite !out_lift.
      destruct (check_descendants _ _ _ _) as [ds|er|]; [|done|done]. cbn [out_of].
      destruct ds as [|d0 ds]; [by apply IH|].
      rewrite !out_bind_ro by (apply readonly_lift). rewrite !out_lift.
      destruct (split_pairs _ _) as [zo|er|]; [|done|done]. cbn [out_of].
      rewrite !out_bind_ro by (apply readonly_push_cell).
      destruct (push_cell_sim q1 q2 (cdepth c2) r zo.2 Hq H1r H2r) as (q1' & q2' & -> & -> & Hq').
      rewrite !out_bind_ro by (apply readonly_push_cell).
      destruct (push_cell_sim q1' q2' (cdepth c2) l zo.1 Hq' H1l H2l) as (q1'' & q2'' & -> & -> & Hq'').
      by apply IH.
  Qed.
  Lemma get_same t ks : stored H m1 t → stored H m2 t →
    out B1 H (get dec D (troot H t) ks) s1 = out B2 H (get dec D (troot H t) ks) s2.
  Proof.
    intros H1 H2. unfold get. destruct ks as [|k ks]; [done|].
    pose proof (stored_root _ _ _ H1) as Hr1. apply has_lookup in Hr1 as [rf1 Hr1].
    pose proof (stored_root _ _ _ H2) as Hr2. apply has_lookup in Hr2 as [rf2 Hr2].
    rewrite !out_bind_ro by (by intros o).
    unfold get_node at 1 2. unfold out at 1 3. cbn [run fst]. rewrite Hr1, Hr2.
    apply get_loop_sim. constructor; [|constructor]. split_and!; try done. exists t. by split_and!.
  Qed.
  Lemma get_one_same t k : stored H m1 t → stored H m2 t → tpwf t →
    out B1 H (get_one dec D (troot H t) k) s1 = out B2 H (get_one dec D (troot H t) k) s2.
  Proof. intros H1 H2 Hw. unfold out. by rewrite !(get_one_run Hn). Qed.
  Lemma prove_same t k : stored H m1 t → stored H m2 t → tpwf t →
    out B1 H (generate_inclusion_proof D (troot H t) k) s1 =
    out B2 H (generate_inclusion_proof D (troot H t) k) s2.
  Proof. intros H1 H2 Hw. by rewrite !(gen_proof_run Hn). Qed.

  (** A data node as root: the reads fail at once. *)
  Lemma get_data r e ks : has m1 r (VData e) → has m2 r (VData e) →
    out B1 H (get dec D r ks) s1 = out B2 H (get dec D r ks) s2.
  Proof.
    intros [rf1 Hr1]%has_lookup [rf2 Hr2]%has_lookup. unfold get. destruct ks as [|k ks]; [done|].
    rewrite !out_bind_ro by (by intros o).
    unfold get_node at 1 2. unfold out at 1 3. cbn [run fst]. rewrite Hr1, Hr2.
    unfold traverse_fuel. rewrite Nat.add_1_r. done.
  Qed.
  Lemma get_one_data r e k : has m1 r (VData e) → has m2 r (VData e) →
    out B1 H (get_one dec D r k) s1 = out B2 H (get_one dec D r k) s2 ∧
    out B1 H (generate_inclusion_proof D r k) s1 = out B2 H (generate_inclusion_proof D r k) s2.
  Proof.
    intros [rf1 Hr1]%has_lookup [rf2 Hr2]%has_lookup. unfold get_one, generate_inclusion_proof.
    rewrite Nat.add_comm. unfold out. cbn. by rewrite Hr1, Hr2.
  Qed.
  (** The reads at a node present in both databases agree, the first being
      proper and included in the second. *)
  Lemma reads_same S r : proper H S m1 → cle m1 m2 → is_Some (m1 !! r) →
    (∀ ks, out B1 H (get dec D r ks) s1 = out B2 H (get dec D r ks) s2) ∧
    (∀ k, out B1 H (get_one dec D r k) s1 = out B2 H (get_one dec D r k) s2) ∧
    (∀ k, out B1 H (generate_inclusion_proof D r k) s1 = out B2 H (generate_inclusion_proof D r k) s2).
  Proof.
    intros Hp Hc [nd Hr]. destruct (Hp _ _ Hr) as (o & Ho & Hw & <- & Hv & Hb).
    assert (has m1 (oloc H o) (ovar H o)) as Hh1 by (unfold has; rewrite Hr, Hv; done).
    destruct o as [t|k e].
    - assert (stored H m1 t) as H1 by (by apply (ostored_iff H m1 (OT t))).
      assert (stored H m2 t) as H2 by (by eapply stored_mono). simpl in *.
      split_and!; intros; [by apply get_same|by apply get_one_same|by apply prove_same].
    - pose proof (Hc _ _ Hh1) as Hh2.
      split_and!; intros; [by eapply get_data|by eapply get_one_data|by eapply get_one_data].
  Qed.
End Sim.

(** ** Stability of reads *)
Section Stable.
  Context {n : nat} (Hn : 0 < n) (B : backend n) {HB : BackendOk B} (H : list bytes → arr n).
  Context {V : Type} (enc : V → res bytes) (dec : bytes → res V) (Hcodec : codec_ok enc dec).

  Notation after := (after B H enc dec).
  Notation after_log := (after_log B H enc dec).
  Lemma hist_after st lg hs cs : hist B H enc dec st lg hs →
    hist B H enc dec (after st cs) (lg ++ after_log st cs) hs.
  Proof.
    revert st lg. induction cs as [|c cs IH]; intros st lg Hh; simpl.
    - by rewrite app_nil_r.
    - rewrite (assoc_L (++)). apply IH. by apply hist_call.
  Qed.
  Lemma after_J (L : list (list bytes)) st cs : inj_on H (λ x, x ∈ L) → J H (λ x, x ∈ L) B (b_vis B st) st →
    (∀ x, x ∈ after_log st cs → x ∈ L) → J H (λ x, x ∈ L) B (b_vis B st) (after st cs).
  Proof.
    intros Hinj. revert st. induction cs as [|c cs IH]; intros st HJ Hl; simpl; [done|]. simpl in Hl.
    pose proof (exec_states Hn B H enc dec Hcodec L st c Hinj HJ
      ltac:(intros; apply Hl, elem_of_app; by left)) as Hs.
    rewrite Forall_forall in Hs. specialize (Hs _ (run_in_states B H (exec enc dec c) st)).
    eapply J_weaken; [|apply IH].
    - apply Hs.
    - by eapply J_rebase.
    - intros x Hx. apply Hl, elem_of_app. by right.
  Qed.

  (** C07: whatever is called later, every read at a stored location, with any
      depth limit, gives the same outcome as before. *)
  Theorem reads_stable st lg hs cs r : hist B H enc dec st lg hs →
    no_collision H (lg ++ after_log st cs) → is_Some (b_vis B st !! r) →
    ∀ D, (∀ ks, out B H (get dec D r ks) (after st cs) = out B H (get dec D r ks) st) ∧
         (∀ k, out B H (get_one dec D r k) (after st cs) = out B H (get_one dec D r k) st) ∧
         (∀ k, out B H (generate_inclusion_proof D r k) (after st cs) =
               out B H (generate_inclusion_proof D r k) st).
  Proof.
    intros Hh Hc Hr D. set (L := lg ++ _) in *.
    assert (hinv B H enc L st hs) as [HJ _].
    { eapply hist_hinv; eauto. intros; apply elem_of_app; by left. }
    apply J_rebase in HJ.
    assert (J H (λ x, x ∈ L) B (b_vis B st) (after st cs)) as HJ'.
    { apply after_J; [done|done|]. intros; apply elem_of_app; by right. }
    destruct (reads_same Hn B B H dec D st (after st cs) (λ x, x ∈ L) r) as (H1 & H2 & H3);
      [apply HJ|apply HJ'|done|]. split_and!; intros; by symmetry.
  Qed.
  (** The root returned by any successful insertion, even of a hazardous batch
      or on an arbitrary previous root, is stored. *)
  Theorem returned_root_stored st lg hs D prev ks vs r : hist B H enc dec st lg hs →
    no_collision H (lg ++ hlog B H (insert enc D prev ks vs) st) →
    out B H (insert enc D prev ks vs) st = ROk r →
    is_Some (b_vis B (fin B H (insert enc D prev ks vs) st) !! r).
  Proof.
    intros Hh Hc Hout. set (L := lg ++ _) in *.
    assert (hinv B H enc L st hs) as [HJ _].
    { eapply hist_hinv; eauto. intros; apply elem_of_app; by left. }
    pose proof (insert_safe Hn H _ Hc B enc (enc_no_panic _ _ Hcodec) D _ prev ks vs st HJ) as Hw.
    apply wp_run in Hw; [|intros; apply elem_of_app; by right].
    rewrite Hout in Hw. destruct Hw as (_ & _ & _ & t & -> & (Ht & _) & _).
    apply stored_root, has_lookup in Ht as [rf Ht]. by eexists.
  Qed.
  (** No read of a reachable state panics or fails to stop, whatever the root. *)
  Theorem reads_no_panic st lg hs D r : hist B H enc dec st lg hs → no_collision H lg →
    (∀ ks, (∃ lm, out B H (get dec D r ks) st = ROk lm) ∨ (∃ er, out B H (get dec D r ks) st = RErr er)) ∧
    (∀ k, (∃ o, out B H (get_one dec D r k) st = ROk o) ∨ (∃ er, out B H (get_one dec D r k) st = RErr er)) ∧
    (∀ k, (∃ p, out B H (generate_inclusion_proof D r k) st = ROk p) ∨
          (∃ er, out B H (generate_inclusion_proof D r k) st = RErr er)).
  Proof.
    intros Hh Hc.
    assert (hinv B H enc lg st hs) as [HJ _] by (by eapply hist_hinv).
    destruct (b_vis B st !! r) as [nd|] eqn:Hr.
    - destruct HJ as (Hp & _). destruct (Hp _ _ Hr) as (o & Ho & Hw & <- & Hv & Hb).
      destruct o as [t|k e]; simpl in *.
      + assert (stored H (b_vis B st) t) as Hst.
        { apply (ostored_iff H (b_vis B st) (OT t)). split; [|done]. unfold has. simpl. rewrite Hr, Hv. done. }
        split_and!.
        * intros ks. pose proof (get_wp Hn H B dec (dec_no_panic _ _ Hcodec) D t ks st Hst Hw) as Hg.
          apply wp_run in Hg; [|by intros].
          destruct (out B H (get dec D (troot H t) ks) st); try done; eauto.
        * intros k. unfold out. rewrite (get_one_run Hn) by done. cbn [fst].
          destruct (D <? tneed t k); [eauto|]. destruct (tlookup t k) as [e|]; [|eauto].
          pose proof (dec_no_panic _ _ Hcodec e). destruct (dec e); try done; eauto.
        * intros k. rewrite (gen_proof_run Hn) by done.
          destruct (D <? tneed t k); [eauto|]. destruct (tlookup t k) as [e|]; eauto.
      + split_and!.
        * intros [|k0 ks]; [left; by eexists|]. right. eexists. unfold get, out, get_node, traverse_fuel.
          rewrite Nat.add_1_r. cbn. rewrite Hr. cbn. rewrite <- Hv. done.
        * intros k0. right. eexists. unfold get_one. rewrite Nat.add_comm. unfold out. cbn.
          rewrite Hr. cbn. rewrite <- Hv. done.
        * intros k0. right. eexists. unfold generate_inclusion_proof. rewrite Nat.add_comm. unfold out. cbn.
          rewrite Hr. cbn. rewrite <- Hv. done.
    - split_and!.
      + intros [|k0 ks]; left; [by eexists|]. unfold get, out, get_node. cbn. rewrite Hr. by eexists.
      + intros k0. left. unfold get_one. rewrite Nat.add_comm. unfold out. cbn. rewrite Hr. by eexists.
      + intros k0. right. unfold generate_inclusion_proof. rewrite Nat.add_comm. unfold out. cbn.
        rewrite Hr. by eexists.
  Qed.
End Stable.
