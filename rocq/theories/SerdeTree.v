(** * A tree stored in a self-describing format *)
From Coq Require Import Strings.Byte Strings.String NArith.
From stdpp Require Import prelude countable gmap list sorting strings.
From Verif Require Import Model Bits Spec Util Bitwise Trie Store Logic Reads Get Evol Route Build Insert Update Safe Hist Total Claims
  RefCount RcInsert Live Regrow Weak Depth Need Exact Cost Codec CodecProofs Bytes Serde SerdeProofs.

Local Open Scope nat_scope.

Fixpoint noflush {n A} (p : prog n A) : Prop :=
  match p with
  | Ret _ | Throw _ | Panic | Fuel => True
  | Hash _ k => ∀ x, noflush (k x)
  | Get _ k => ∀ x, noflush (k x)
  | Put _ _ k => noflush k
  | Del _ _ | Flush _ => False
  end.
Fixpoint noget {n A} (p : prog n A) : Prop :=
  match p with
  | Ret _ | Throw _ | Panic | Fuel => True
  | Hash _ k => ∀ x, noget (k x)
  | Get _ k => False
  | Put _ _ k | Del _ k | Flush k => noget k
  end.
Lemma noflush_bind {n A B} (p : prog n A) (k : A → prog n B) :
  noflush p → (∀ a, noflush (k a)) → noflush (p ≫= k).
Proof.
  intros Hp Hk. unfold mbind, prog_bind in *.
  induction p as [a|e| | |cs k' IH|l k' IH|l nd k' IH|l k' IH|k' IH]; cbn in *; try done; auto.
Qed.
Lemma noget_bind {n A B} (p : prog n A) (k : A → prog n B) :
  noget p → (∀ a, noget (k a)) → noget (p ≫= k).
Proof.
  intros Hp Hk. unfold mbind, prog_bind in *.
  induction p as [a|e| | |cs k' IH|l k' IH|l nd k' IH|l k' IH|k' IH]; cbn in *; try done; auto.
Qed.
Lemma noget_lift {n A} (r : res A) : noget (lift r : prog n A).
Proof. by destruct r. Qed.
Lemma frun_bind {n A B} fe fd (H : list bytes → arr n) (p : prog n A) (k : A → prog n B) s :
  frun fe fd H (p ≫= k) s =
  match frun fe fd H p s with
  | (ROk a, s') => frun fe fd H (k a) s'
  | (RErr e, s') => (RErr e, s')
  | (RPanic, s') => (RPanic, s')
  | (RFuel, s') => (RFuel, s')
  end.
Proof.
  revert s. induction p as [a|e| | |cs k' IH|l k' IH|l nd k' IH|l k' IH|k' IH]; intros s; cbn [mbind prog_bind pbind frun]; try done; try apply IH.
  destruct (fget fd s l); [apply IH|done|done].
Qed.
Lemma frun_noflush {n A} fe fd (H : list bytes → arr n) (p : prog n A) s :
  noflush p → bcommitted (frun fe fd H p s).2 = bcommitted s.
Proof.
  revert s. induction p as [a|e| | |cs k IH|l k IH|l nd k IH|l k IH|k IH]; intros s Hp; cbn [frun noflush] in *; try done.
  - by apply IH.
  - destruct (fget fd s l); [by apply IH|done|done].
  - by rewrite IH.
Qed.

Section Tree.
  Context {n : nat} (Hn : 0 < n) (H : list bytes → arr n) {V : Type} (enc : V → res bytes) (dec : bytes → res V).
  Context (fe : node n → bytes) (fd : bytes → res (node n)).

  Lemma noflush_leaves vm ks : noflush (insert_leaves (n:=n) enc vm ks).
  Proof using.
    induction ks as [|k ks IH]; [done|]. cbn [insert_leaves]. apply noflush_bind.
    - unfold insert_leaves_one. destruct (vm !! k) as [v|]; [|done]. apply noflush_bind; [by destruct (enc v)|].
      intros e. cbn. done.
    - intros l. apply noflush_bind; [done|]. done.
  Qed.
  Lemma noget_create (rs : list (tref n)) : noget (create_tree rs).
  Proof using.
    unfold create_tree. destruct rs as [|r [|r' rs]]; [done|done|].
    apply noget_bind; [apply noget_lift|]. intros items.
    apply noget_bind; [|by intros []].
    generalize (sort_refs (r :: r' :: rs)), (@None (arr n)). clear r r' rs.
    induction (levels_of items) as [|lv lvs IH]; intros rs o; [done|].
    cbn [merge_all]. apply noget_bind; [|intros x; apply IH].
    unfold merge_nodes. apply noget_bind; [|done].
    generalize (mkarr n []). revert rs. induction lv as [|[[si p] nx] lv IHl]; intros rs l; [done|].
    cbn [merge_level]. apply noget_bind; [|intros x; apply IHl].
    unfold merge_one. repeat (apply noget_bind; [apply noget_lift|intros ?]). done.
  Qed.

  (** Every operation on such a root fails. *)
  Theorem unreadable s r b er : codec_ok enc dec → (∀ b, fd b ≠ Pan) →
    bcommitted s !! r = Some b → fd b = Err er →
    (∀ D k, frun fe fd H (get_one dec D r k) s = (RErr er, s)) ∧
    (∀ D ks, ks ≠ [] → frun fe fd H (get dec D r ks) s = (RErr er, s)) ∧
    (∀ D k, frun fe fd H (generate_inclusion_proof D r k) s = (RErr er, s)) ∧
    (∀ f, frun fe fd H (remove (S f) r) s = (RErr er, s)) ∧
    (∀ D ks vs, ∃ er', (frun fe fd H (insert enc D (Some r) ks vs) s).1 = RErr er').
  Proof using Hn.
    intros Hcodec Hpan Hb Her. assert (fget fd s r = Err er) as Hg by (unfold fget; by rewrite Hb, Her).
    split_and!.
    - intros D k. unfold get_one. rewrite Nat.add_comm. cbn. by rewrite Hg.
    - intros D ks Hne. destruct ks as [|k ks]; [done|]. cbn. by rewrite Hg.
    - intros D k. unfold generate_inclusion_proof. rewrite Nat.add_comm. cbn. by rewrite Hg.
    - intros f. cbn. by rewrite Hg.
    - intros D ks vs. unfold insert.
      destruct (Nat.eqb_spec (length ks) (length vs)) as [Hlen|?]; [|eexists; reflexivity]. simpl negb. cbn iota.
      destruct (Nat.eqb_spec (length ks) 0) as [Hz|Hne1]; [eexists; done|].
      destruct (Nat.eqb_spec (length vs) 0) as [|Hne2]; [eexists; done|]. simpl orb. cbn iota.
      assert (∀ k, k ∈ sort_keys ks → is_Some (value_map_of ks vs !! k)) as Hvm.
      { intros k Hk. apply value_map_some; [done|done|]. by apply elem_of_sort_keys. }
      unfold insert_sorted. rewrite frun_bind.
      pose proof (frun_noflush fe fd H _ s (noflush_leaves (value_map_of ks vs) (sort_keys ks))) as Hc.
      assert (∀ s, ∃ o, (frun fe fd H (insert_leaves enc (value_map_of ks vs) (sort_keys ks)) s).1 = o ∧
        match o with ROk _ | RErr _ => True | _ => False end) as Ho.
      { generalize (sort_keys ks) as l, Hvm. clear Hvm. intros l Hvm. clear Hc Hb Hg.
        induction l as [|k l IH]; intros s0; [eexists; split; [reflexivity|done]|].
        cbn [insert_leaves]. rewrite frun_bind. unfold insert_leaves_one at 1.
        destruct (Hvm k ltac:(by left)) as [v ->]. pose proof (enc_no_panic _ _ Hcodec v) as Hep.
        destruct (enc v) as [e|e|]; [|eexists; split; [reflexivity|done]|done].
        cbn [lift mbind prog_bind pbind hash get_node frun].
        assert (∀ s0 l0, fget fd s0 l0 ≠ Pan) as Hgp.
        { intros s1 l1. unfold fget. destruct (bcommitted s1 !! l1) as [b0|]; [|done].
          pose proof (Hpan b0). by destruct (fd b0). }
        pose proof (Hgp s0 (H (data_in k e))).
        destruct (fget fd s0 (H (data_in k e))) as [od|e1|]; [|eexists; split; [reflexivity|done]|done].
        pose proof (Hgp s0 (H (leaf_in k (H (data_in k e))))).
        destruct (fget fd s0 (H (leaf_in k (H (data_in k e))))) as [ol|e1|]; [|eexists; split; [reflexivity|done]|done].
        cbn [db_insert mbind prog_bind pbind frun mret prog_ret]. rewrite frun_bind.
        match goal with |- context [frun fe fd H (insert_leaves _ _ _) ?s1] =>
          destruct (IH (λ k' Hk', Hvm k' (elem_of_list_further _ _ _ Hk')) s1) as (o & Ho & Hm);
          destruct (frun fe fd H (insert_leaves enc (value_map_of ks vs) l) s1) as [o' s2] end.
        cbn [fst] in Ho. subst o'. destruct o as [x|e'| |]; try done; cbn [frun mret prog_ret]; (eexists; split; [reflexivity|done]). }
      destruct (Ho s) as (o & Ho1 & Ho2).
      destruct (frun fe fd H (insert_leaves enc (value_map_of ks vs) (sort_keys ks)) s) as [o' s']. cbn [fst snd] in *. subst o'.
      destruct o as [x|e'| |]; try done; [|by eexists].
      unfold generate_treerefs. cbn [mbind prog_bind pbind get_node frun].
      unfold fget at 1. rewrite Hc, Hb, Her. cbn [mbind res_bind]. by eexists.
  Qed.
End Tree.

Lemma reads_bind {n A B} (H : list bytes → arr n) (p : prog n A) (k : A → prog n B) s :
  reads_node H (p ≫= k) s =
  reads_node H p s ||
  match out (rocks_db n) H p s with ROk a => reads_node H (k a) (fin (rocks_db n) H p s) | _ => false end.
Proof.
  revert s. unfold mbind, prog_bind, out, fin.
  induction p as [a|e| | |cs k' IH|l k' IH|l nd k' IH|l k' IH|k' IH]; intros s; cbn [pbind reads_node run]; try done; try apply IH.
  - rewrite IH. by destruct (run (rocks_db n) H (k' (H cs)) s) as [[o st] lg].
  - cbn [b_vis rocks_db]. rewrite !IH. by destruct (committed s !! l) as [[r [? ? ? ? ?|? ?|v]]|].
Qed.
Lemma reads_noflush {n A} (H : list bytes → arr n) (p : prog n A) s :
  noflush p → committed s = ∅ → reads_node H p s = false.
Proof.
  revert s. induction p as [a|e| | |cs k IH|l k IH|l nd k IH|l k IH|k IH]; intros s Hp Hs; cbn [reads_node noflush] in *; try done.
  - by apply IH.
  - rewrite Hs, lookup_empty. by apply IH.
  - by apply IH.
Qed.
Lemma reads_noget {n A} (H : list bytes → arr n) (p : prog n A) s : noget p → reads_node H p s = false.
Proof.
  revert s. induction p as [a|e| | |cs k IH|l k IH|l nd k IH|l k IH|k IH]; intros s Hp; cbn [reads_node noget] in *; try done; by apply IH.
Qed.

Section First.
  Context {n : nat} (Hn : 0 < n) (H : list bytes → arr n) {V : Type} (enc : V → res bytes) (dec : bytes → res V).
  Context (Hcodec : codec_ok enc dec) (F : format) (HF : faithful F) (HP : ∀ b, f_read F b ≠ Pan).
  Local Notation RB := (rocks_db n).
  Local Notation go := (frun (f_enc F) (f_dec F) H).

  Theorem first_insert D ks vs r :
    no_collision H (hlog RB H (insert enc D None ks vs) (b_init RB)) →
    (∀ s', s' ∈ states RB H (insert enc D None ks vs) (b_init RB) → small_st s') →
    out RB H (insert enc D None ks vs) (b_init RB) = ROk r →
    let s := fser (f_enc F) (fin RB H (insert enc D None ks vs) (b_init RB)) in
    go (insert enc D None ks vs) binit = (ROk r, s) ∧
    (∀ D k, go (get_one dec D r k) s = (RErr seq_error, s)) ∧
    (∀ D ks, ks ≠ [] → go (get dec D r ks) s = (RErr seq_error, s)) ∧
    (∀ D k, go (generate_inclusion_proof D r k) s = (RErr seq_error, s)) ∧
    (∀ f, go (remove (S f) r) s = (RErr seq_error, s)) ∧
    (∀ D ks vs, ∃ er, (go (insert enc D (Some r) ks vs) s).1 = RErr er).
  Proof using Hn Hcodec HF HP.
    intros Hc Hs Hout. set (p := insert enc D None ks vs) in *. set (st := fin RB H p (b_init RB)) in *. intros s.
    assert (reads_node H p (b_init RB) = false) as Hrd.
    { unfold p, insert. case_match; [done|]. case_match; [done|]. unfold insert_sorted. rewrite reads_bind.
      rewrite (reads_noflush H) by (done || apply noflush_leaves). rewrite orb_false_l. case_match; [|done..].
      rewrite reads_bind. cbn [reads_node mret prog_ret]. rewrite orb_false_l. unfold out. cbn [run mret prog_ret fst].
      apply reads_noget, noget_create. }
    pose proof (format_run F H p (b_init RB) HF Hs) as Hrun. rewrite Hrd, fser_init, Hout in Hrun.
    split; [exact Hrun|].
    assert (hist RB H enc dec st ([] ++ hlog RB H p (b_init RB)) [(r, updated ∅ ks vs)]) as Hh.
    { eapply hist_insert; [constructor|done| |done]. left. apply benign_empty. }
    destruct (known_J Hn RB H enc dec Hcodec _ st _ _ (or_introl Hh) Hc) as [Hf _]; [done|].
    apply Forall_cons in Hf as [(t & Hr & Hwf & Hst & Hpre & He) _]. cbn [fst] in Hr. subst r.
    apply stored_root, has_lookup in Hst as [rf Hrf].
    assert (small (Node rf (tvar H t))) as Hsm.
    { assert (small_st st) as [Hst _]; [|by eapply Hst]. apply Hs. apply run_in_states. }
    apply (unreadable Hn H enc dec (f_enc F) (f_dec F) s (troot H t) (f_enc F (Node rf (tvar H t)))).
    - done.
    - intros b. unfold f_dec, f_dec_with. pose proof (HP b). destruct (f_read F b); [apply de_node_no_pan|done|done].
    - cbn [s fser bcommitted]. rewrite lookup_fmap. change (committed st) with (b_vis RB st). by rewrite Hrf.
    - apply f_dec_fails; [done|done|]. by destruct t.
  Qed.
End First.
