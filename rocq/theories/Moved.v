(** * A tree copied into any other database *)
From Coq Require Import Strings.Byte NArith.
From stdpp Require Import prelude countable gmap sorting strings.
From Verif Require Import Model Spec Bits Util Trie Store Logic Build Evol Reads Insert Update Get Hist Claims RefCount Live Limits Weak Cost Need AnyReads Scratch.

Local Open Scope nat_scope.

(** [refine R p q]: [q] does what [p] does, except for reference counts, if it is given the nodes [p] is given (and
    anything where [p] is given none), unless [p] fails for lack of a node. *)
Definition missing (e : string) : Prop :=
  e = "Could not find root" ∨ e = "Failed to find node in database." ∨
  e = "Corrupt merkle tree: Failed to update leaf references".
Definition fits_in {n} (o o' : option (node n)) : Prop := ∀ nd, o = Some nd → ∃ nd', o' = Some nd' ∧ var nd' = var nd.
Fixpoint refine {n A} (R : A → A → Prop) (p q : prog n A) : Prop :=
  match p with
  | Ret a => ∃ b, q = Ret b ∧ R a b
  | Throw e => missing e ∨ q = Throw e
  | Panic => q = Panic
  | Fuel => q = Fuel
  | Hash cs k => ∃ k', q = Hash cs k' ∧ ∀ h, refine R (k h) (k' h)
  | Get l k => ∃ k', q = Get l k' ∧ ∀ o o', fits_in o o' → refine R (k o) (k' o')
  | Put l nd k => ∃ nd' k', q = Put l nd' k' ∧ var nd' = var nd ∧ refine R k k'
  | Del _ _ => False
  | Flush k => ∃ k', q = Flush k' ∧ refine R k k'
  end.

Section Refine.
  Context {n : nat}.
  Lemma refine_bind {A C} (R : A → A → Prop) (R' : C → C → Prop) (p q : prog n A) (f g : A → prog n C) :
    refine R p q → (∀ a b, R a b → refine R' (f a) (g b)) → refine R' (p ≫= f) (q ≫= g).
  Proof.
    intros Hp Hf. unfold mbind, prog_bind. revert q Hp.
    induction p as [a|e| | |cs k IH|l k IH|l nd k IH|l k IH|k IH]; intros q Hp; simpl in *.
    - destruct Hp as (b & -> & Hb). by apply Hf.
    - destruct Hp as [?| ->]; [by left|by right].
    - by subst.
    - by subst.
    - destruct Hp as (k' & -> & Hp). eexists. split; [done|]. intros h. by apply IH.
    - destruct Hp as (k' & -> & Hp). eexists. split; [done|]. intros o o' Ho. by apply IH, Hp.
    - destruct Hp as (nd' & k' & -> & Hv & Hp). eexists _, _. split_and!; [done|done|]. by apply IH.
    - done.
    - destruct Hp as (k' & -> & Hp). eexists. split; [done|]. by apply IH.
  Qed.
  Lemma refine_blind {A} (p q : prog n A) : blind p q → refine eq p q.
  Proof.
    revert q. induction p as [a|e| | |cs k IH|l k IH|l nd k IH|l k IH|k IH];
      intros [b|e'| | |cs' k'|l' k'|l' nd' k'|l' k'|k'] Hp; simpl in *; try done.
    - subst. eauto.
    - subst. by right.
    - destruct Hp as [-> Hp]. eauto.
    - destruct Hp as [-> Hp]. eauto.
    - destruct Hp as (-> & Hv & Hp). eexists _, _. split_and!; eauto.
    - eauto.
  Qed.
  Lemma refine_lift {A} (r : res A) : refine (n := n) eq (lift r) (lift r).
  Proof. apply refine_blind, blind_lift. Qed.
  Lemma refine_throw {A} (R : A → A → Prop) e (q : prog n A) : q = Throw e → refine R (Throw e) q.
  Proof. by right. Qed.

  Definition same_cell (c c' : cell (n := n)) : Prop :=
    cloc c = cloc c' ∧ ckeys c = ckeys c' ∧ cdepth c = cdepth c' ∧ var (cnode c') = var (cnode c).
  Definition same_part (x y : tref n + cell (n := n)) : Prop :=
    match x, y with inl t, inl t' => t = t' | inr c, inr c' => same_cell c c' | _, _ => False end.
  Lemma refine_insert_leaf (l : arr n) : refine (λ _ _, True) (insert_leaf l) (insert_leaf l).
  Proof.
    unfold insert_leaf. cbn. eexists. split; [done|]. intros [nd|] o' Ho; [|by left; right; right].
    destruct (Ho nd eq_refl) as (nd' & -> & Hv). cbn. eexists _, _. split_and!; [done|done|eauto].
  Qed.
  Lemma refine_split d (b : arr n) ks : refine same_part (split_nodes d b ks) (split_nodes d b ks).
  Proof.
    unfold split_nodes. cbn. eexists. split; [done|]. intros [nd|] o' Ho; [|by left; right; left].
    destruct (Ho nd eq_refl) as (nd' & -> & Hv). destruct ks as [|k ks].
    - rewrite Hv. destruct (var nd); cbn; [| |by right]; eexists _, _; (split_and!; [done|done|]); eexists; by split.
    - cbn. eexists. split; [done|]. by split_and!.
  Qed.
  Lemma same_push x y (acc : list (tref n)) q q' : same_part x y → Forall2 same_cell q q' →
    (push_split x acc q).1 = (push_split y acc q').1 ∧ Forall2 same_cell (push_split x acc q).2 (push_split y acc q').2.
  Proof. destruct x, y; cbn; try done; [by intros ->|]. intros ? ?. split; [done|]. by constructor. Qed.
  Lemma refine_traverse D fuel (km : gmap (arr n) (arr n)) acc q q' : Forall2 same_cell q q' →
    refine eq (traverse_tree D fuel km acc q) (traverse_tree D fuel km acc q').
  Proof.
    revert acc q q'. induction fuel as [|fuel IH]; intros acc q q' Hq.
    { destruct Hq as [|c c' q q' Hc Hq]; cbn; eauto. }
    destruct Hq as [|c c' q q' Hc Hq]; [cbn; eauto|].
    destruct Hc as (Hl & Hk & Hd & Hv). cbn [traverse_tree]. rewrite <- Hd, <- Hl, <- Hk, Hv.
    destruct (D <? cdepth c); [by right|].
    destruct (var (cnode c)) as [count zero one si bk|lk ld|e]; [| |by right].
    - eapply refine_bind; [apply refine_lift|]. intros m ? <-.
      eapply (refine_bind eq). { destruct (m <? si); [apply refine_lift|cbn; eauto]. }
      intros ds ? <-. destruct (_ && _).
      + cbn. eexists _, _. split_and!; [done|done|]. by apply IH.
      + eapply refine_bind; [apply refine_lift|]. intros zo ? <-.
        eapply refine_bind; [apply refine_split|]. intros r1 r1' Hr1.
        destruct (same_push r1 r1' acc q q' Hr1 Hq) as [Ha1 Hq1].
        destruct (push_split r1 acc q) as [a1 q1], (push_split r1' acc q') as [a1' q1']. cbn in Ha1, Hq1. subst a1'.
        eapply refine_bind; [apply refine_split|]. intros r0 r0' Hr0.
        destruct (same_push r0 r0' a1 q1 q1' Hr0 Hq1) as [Ha0 Hq0].
        destruct (push_split r0 a1 q1) as [a0 q0], (push_split r0' a1 q1') as [a0' q0']. cbn in Ha0, Hq0. subst a0'.
        by apply IH.
    - destruct (km !! lk) as [l|]; [case_decide|].
      + eapply refine_bind; [apply refine_insert_leaf|]. intros ? ? _. by apply IH.
      + by apply IH.
      + eapply refine_bind; [apply refine_insert_leaf|]. intros ? ? _. by apply IH.
  Qed.
  Lemma refine_insert {V} (enc : V → res bytes) D prev (ks : list (arr n)) vs :
    refine eq (insert enc D prev ks vs) (insert enc D prev ks vs).
  Proof.
    unfold insert. case_match; [by right|]. case_match; [by right|]. unfold insert_sorted.
    eapply refine_bind; [apply refine_blind, blind_leaves|]. intros ls ? <-.
    eapply (refine_bind eq).
    { destruct prev as [r|]; [|cbn; eauto]. unfold generate_treerefs. cbn. eexists. split; [done|].
      intros [nd|] o' Ho; [|by left; left]. destruct (Ho nd eq_refl) as (nd' & -> & Hv). apply refine_traverse.
      by repeat constructor. }
    intros ps ? <-. apply refine_blind, blind_create.
  Qed.

  Context (B : backend n) {HB : BackendOk B} (H : list bytes → arr n).
  (** The two kinds of backends: queued writes are not seen, or there is no queue. *)
  Definition lazy_or_eager : Prop := (∀ s l nd, b_vis B (b_put B s l nd) = b_vis B s) ∨ (∀ s, b_vis B s = bview s).
  Context (Hle : lazy_or_eager).
  Lemma cle_insert (m m' : db n) l nd nd' : cle m m' → var nd' = var nd → cle (<[l := nd]> m) (<[l := nd']> m').
  Proof using.
    intros Hc Hv x v. unfold has. destruct (decide (x = l)) as [->|]; [rewrite !lookup_insert; cbn; by rewrite Hv|].
    rewrite !lookup_insert_ne by done. apply Hc.
  Qed.
  Lemma refine_run {A} (p q : prog n A) s1 s2 : refine eq p q → cle (b_vis B s1) (b_vis B s2) → cle (bview s1) (bview s2) →
    (∀ x, x ∈ hlog B H p s1 → x ∈ hlog B H q s2) ∧
    ((∃ e, missing e ∧ out B H p s1 = RErr e) ∨
     out B H q s2 = out B H p s1 ∧ cle (b_vis B (fin B H p s1)) (b_vis B (fin B H q s2)) ∧
     cle (bview (fin B H p s1)) (bview (fin B H q s2))).
  Proof using Hle.
    unfold out, fin, hlog. revert q s1 s2.
    induction p as [a|e| | |cs k IH|l k IH|l nd k IH|l k IH|k IH]; intros q s1 s2 Hp Hc1 Hc2; simpl in Hp; cbn [run].
    - destruct Hp as (b & -> & <-). split; [done|]. by right.
    - split; [by intros x ?%elem_of_nil|]. destruct Hp as [?| ->]; [left|right]; eauto.
    - subst. split; [done|]. by right.
    - subst. split; [done|]. by right.
    - destruct Hp as (k' & -> & Hp). cbn [run]. specialize (IH (H cs) (k' (H cs)) s1 s2 (Hp _) Hc1 Hc2).
      destruct (run B H (k (H cs)) s1) as [[o1 t1] l1], (run B H (k' (H cs)) s2) as [[o2 t2] l2]. cbn in *.
      destruct IH as [Hl IH]. split; [|done]. intros x. rewrite !elem_of_cons. naive_solver.
    - destruct Hp as (k' & -> & Hp). cbn [run]. apply IH; [|done|done]. apply Hp. intros nd Hnd.
      assert (has (b_vis B s1) l (var nd)) as Hh by (unfold has; by rewrite Hnd). apply Hc1 in Hh. unfold has in Hh.
      destruct (b_vis B s2 !! l) as [nd'|]; [|done]. injection Hh as Hh. eauto.
    - destruct Hp as (nd' & k' & -> & Hv & Hp). cbn [run].
      assert (cle (bview (b_put B s1 l nd)) (bview (b_put B s2 l nd'))) as Hc2'.
      { rewrite !bview_put. by apply cle_insert. }
      apply IH; [done| |done]. destruct Hle as [Hl|He]; [by rewrite !Hl|by rewrite !He].
    - done.
    - destruct Hp as (k' & -> & Hp). cbn [run]. apply IH; [done| |]; rewrite ?bvis_flush, ?bview_flush; done.
  Qed.
  (** A state with given contents and nothing queued. *)
  Lemma state_of (m : db n) : ∃ s : b_st B, b_vis B s = m ∧ bview s = m ∧ bpend s = [].
  Proof using HB.
    assert (∃ s : b_st B, bview s = m) as [s Hs].
    { induction m as [|l nd m _ [s Hs]] using map_ind; [exists (b_init B); apply bview_init|].
      exists (b_put B s l nd). by rewrite bview_put, Hs. }
    exists (b_flush B s). by rewrite bvis_flush, bview_flush, bpend_flush.
  Qed.
End Refine.

Section Grow.
  Context {n : nat} (H : list bytes → arr n) (S : list bytes → Prop) (Hinj : inj_on H S).
  (** The smallest database with a trie. *)
  Fixpoint plant (t : trie n) (m : db n) : db n :=
    match t with
    | TLeaf k e => <[lloc H k e := Node 1 (tvar H t)]> (<[dloc H k e := Node 1 (VData e)]> m)
    | TNode l r => <[troot H t := Node 1 (tvar H t)]> (plant r (plant l m))
    end.
  Lemma plant_least t m m2 : cle m m2 → stored H m2 t → cle (plant t m) m2.
  Proof.
    assert (∀ m l nd, cle m m2 → has m2 l (var nd) → cle (<[l := nd]> m) m2) as Hput.
    { intros m1 l nd Hc Hh x v. unfold has. destruct (decide (x = l)) as [->|]; [rewrite lookup_insert|by rewrite lookup_insert_ne; [apply Hc|]].
      cbn. by intros [= <-]. }
    revert m. induction t as [k e|l IHl r IHr]; intros m Hc Hst; cbn [plant stored] in *.
    - destruct Hst. by apply Hput; [apply Hput|].
    - destruct Hst as (? & ? & ?). apply Hput; [|done]. by apply IHr; [apply IHl|].
  Qed.
  Lemma plant_stored t m : proper H S m → tpwf t → Forall S (tpre H t) →
    cle m (plant t m) ∧ proper H S (plant t m) ∧ stored H (plant t m) t.
  Proof using Hinj.
    pose proof (proper_keeps H S Hinj) as Hk.
    revert m. induction t as [k e|l IHl r IHr]; intros m Hp Hw Hpre.
    - pose proof Hpre as Hpre'. cbn in Hpre'. rewrite !Forall_cons in Hpre'. destruct Hpre' as (H1 & H2 & _).
      cbn [plant]. set (m1 := <[dloc H k e := Node 1 (VData e)]> m).
      assert (opre_ok H S (OD k e)) as Ho1 by (by repeat constructor).
      assert (proper H S m1) as Hp1 by (apply (keeps_put _ _ _ _ Hk m (OD k e)); simpl; auto; lia).
      assert (cle m m1) as Hc1 by (by apply (keeps_cle _ _ _ _ Hk m (OD k e))).
      assert (has m1 (dloc H k e) (VData e)) as Hd1.
      { unfold has, m1. by rewrite lookup_insert. }
      set (m2 := <[lloc H k e := Node 1 (tvar H (TLeaf k e))]> m1).
      assert (proper H S m2) as Hp2 by (apply (keeps_put _ _ _ _ Hk m1 (OT (TLeaf k e))); simpl; auto; lia).
      assert (cle m1 m2) as Hc2 by (by apply (keeps_cle _ _ _ _ Hk m1 (OT (TLeaf k e)))).
      split_and!; [by eapply cle_trans|done|]. cbn [stored]. split; [|by apply Hc2].
      unfold has, m2. by rewrite lookup_insert.
    - pose proof Hpre as Hpre'. cbn [tpre] in Hpre'. rewrite Forall_cons, Forall_app in Hpre'. destruct Hpre' as (H1 & H2 & H3).
      pose proof Hw as (Hw1 & Hw2 & Hw3). cbn [plant]. set (rt := troot H (TNode l r)).
      destruct (IHl m Hp Hw1 H2) as (Hc1 & Hp1 & Hs1). set (m1 := plant l m) in *.
      destruct (IHr m1 Hp1 Hw2 H3) as (Hc2 & Hp2 & Hs2). set (m2 := plant r m1) in *.
      assert (stored H m2 l) as Hs1' by (by eapply stored_mono).
      assert (proper H S (<[rt := Node 1 (tvar H (TNode l r))]> m2)) as Hp3
        by (apply (keeps_put _ _ _ _ Hk m2 (OT (TNode l r))); auto; [by split|simpl; lia]).
      assert (cle m2 (<[rt := Node 1 (tvar H (TNode l r))]> m2)) as Hc3 by (by apply (keeps_cle _ _ _ _ Hk m2 (OT (TNode l r)))).
      split_and!; [|done|].
      + eapply cle_trans; [exact Hc1|]. by eapply cle_trans.
      + cbn [stored]. split_and!; [|by eapply stored_mono|by eapply stored_mono].
        unfold has. by rewrite lookup_insert.
  Qed.
End Grow.

(** ** Copied trees
    [kept m m' r]: the nodes [m] has below [r] are in [m'] too, with the same contents. *)
Definition kept {n} (m m' : db n) (r : arr n) : Prop :=
  ∀ x nd, rtc (child m) r x → m !! x = Some nd → ∃ nd', m' !! x = Some nd' ∧ var nd' = var nd.
Definition all_kept {n} {V : Type} {B1 B2 : backend n} (st1 : b_st B1) (st2 : b_st B2) (hs : list (arr n * gmap (arr n) V)) : Prop :=
  ∀ r M, (r, M) ∈ hs → kept (b_vis B1 st1) (b_vis B2 st2) r ∧ kept (b_vis B1 st1) (b_vis B2 (b_flush B2 st2)) r.
(** [away st lg hs]: [st] is a database about which nothing is known but that it has the trees of [hs]: trees copied
    from other databases (of a backend [B1]), and trees obtained from these by insertions in this database. *)
Section Away.
  Context {n : nat} (B1 B : backend n) (H : list bytes → arr n) {V : Type} (enc : V → res bytes) (dec : bytes → res V).
  Inductive away : b_st B → list (list bytes) → list (arr n * gmap (arr n) V) → Prop :=
  | away_any st : away st [] []
  | away_copy st lg hs st0 lg0 r M st' : away st lg hs → live B1 H enc dec st0 lg0 r M →
      all_kept st0 st' [(r, M)] → all_kept st st' hs → away st' (lg ++ lg0) ((r, M) :: hs)
  | away_else st lg hs st' : away st lg hs → all_kept st st' hs → away st' lg hs
  | away_insert st lg hs D prev M ks vs r : away st lg hs → prev_holds hs prev M → mild M ks →
      out B H (insert enc D prev ks vs) st = ROk r →
      away (fin B H (insert enc D prev ks vs) st) (lg ++ hlog B H (insert enc D prev ks vs) st)
           ((r, updated M ks vs) :: hs).
End Away.

Lemma hash_eager n : lazy_or_eager (hash_db n).
Proof. by right. Qed.
Lemma rocks_lazy n : lazy_or_eager (rocks_db n).
Proof. by left. Qed.

Section Moved.
  Context {n : nat} (Hn : 0 < n) (B1 B : backend n) {HB1 : BackendOk B1} {HB : BackendOk B} (H : list bytes → arr n).
  Context {V : Type} (enc : V → res bytes) (dec : bytes → res V) (Hcodec : codec_ok enc dec).
  Context (Hle : lazy_or_eager B).
  Implicit Types (st : b_st B) (lg L : list (list bytes)) (k r : arr n) (ks : list (arr n)) (vs : list V).
  Implicit Types (M : gmap (arr n) V) (hs : list (arr n * gmap (arr n) V)) (t l : trie n).
  Notation Sof L := (λ x, x ∈ L).

  Lemma kept_stored (m m' : db n) t : stored H m t → kept m m' (troot H t) → stored H m' t.
  Proof.
    intros Hst Hk. assert (∀ x v, rtc (child m) (troot H t) x → has m x v → has m' x v) as Hk'.
    { intros x v Hx Hv. apply has_lookup in Hv as [rf Hv]. destruct (Hk _ _ Hx Hv) as (nd' & Hl & Hv').
      unfold has. rewrite Hl. cbn. by rewrite Hv'. }
    clear Hk. induction t as [k e|t1 IH1 t2 IH2]; cbn [stored] in *.
    - destruct Hst as [H1 H2]. pose proof H1 as Hh. apply has_lookup in Hh as [rf Hh]. split.
      + apply Hk'; [by apply rtc_refl|done].
      + apply Hk'; [|done]. eapply rtc_once. eexists. split; [exact Hh|]. cbn. set_solver.
    - destruct Hst as (H1 & H2 & H3). pose proof H1 as Hh. apply has_lookup in Hh as [rf Hh].
      split_and!; [apply Hk'; [by apply rtc_refl|done]| |].
      + apply IH1; [done|]. intros x v Hx. apply Hk'. eapply rtc_l; [|exact Hx]. eexists. split; [exact Hh|]. cbn. set_solver.
      + apply IH2; [done|]. intros x v Hx. apply Hk'. eapply rtc_l; [|exact Hx]. eexists. split; [exact Hh|]. cbn. set_solver.
  Qed.

  Definition ainv L st hs : Prop := ∀ r M, (r, M) ∈ hs →
    ∃ t, r = troot H t ∧ twf t ∧ stored H (b_vis B st) t ∧ stored H (bview st) t ∧ Forall (Sof L) (tpre H t) ∧ encs enc M (tmap t).
  Lemma ainv_serves L st hs r M : ainv L st hs → (r, M) ∈ hs → serves B H enc dec st r M.
  Proof using Hn Hcodec.
    intros Hi Hin. destruct (Hi r M Hin) as (t & -> & ? & ? & _ & ? & ?).
    eapply (handle_serves Hn B H enc dec Hcodec L). exists t. by split_and!.
  Qed.
  Lemma plants_ok L (m2 m3 : db n) hs : inj_on H (Sof L) →
    (∀ r M, (r, M) ∈ hs → ∃ t, r = troot H t ∧ twf t ∧ stored H m2 t ∧ stored H m3 t ∧ Forall (Sof L) (tpre H t) ∧ encs enc M (tmap t)) →
    ∃ m, proper H (Sof L) m ∧ cle m m2 ∧ cle m m3 ∧ Forall (handle_ok H enc L m) hs.
  Proof.
    intros Hinj. induction hs as [|[r M] hs IH]; intros Hi.
    { exists ∅. split_and!; [apply proper_empty|by intros l v|by intros l v|constructor]. }
    destruct IH as (m & Hp & Hc2 & Hc3 & Hf). { intros r' M' Hin. apply Hi. by right. }
    destruct (Hi r M) as (t & -> & Hwf & Hs2 & Hs3 & Hpre & He); [by left|].
    destruct (plant_stored H (Sof L) Hinj t m Hp (twf_tpwf t Hwf) Hpre) as (Hc & Hp' & Hst).
    exists (plant H t m). split; [done|]. split; [by apply plant_least|]. split; [by apply plant_least|]. constructor.
    - exists t. by split_and!.
    - eapply handles_mono; [exact Hc|done].
  Qed.
  (** Insertion, as in a known database. *)
  Theorem ainv_insert L st hs D prev M ks vs : inj_on H (Sof L) → ainv L st hs →
    prev_holds hs prev M → mild M ks → (∀ x, x ∈ hlog B H (insert enc D prev ks vs) st → x ∈ L) →
    match out B H (insert enc D prev ks vs) st with
    | ROk r => ainv L (fin B H (insert enc D prev ks vs) st) ((r, updated M ks vs) :: hs) ∧ length ks = length vs ∧ ks ≠ [] ∧ NoDup ks
    | _ => length ks ≠ length vs ∨ ks = [] ∨ ¬ NoDup ks ∨ (∃ v er, v ∈ vs ∧ enc v = Err er) ∨ (is_Some prev ∧ D < 8 * n)
    end.
  Proof using Hn HB Hcodec Hle.
    intros Hinj Hi Hp Hb Hlg. destruct (plants_ok L _ _ hs Hinj Hi) as (m & Hpm & Hc1 & Hc2 & Hf).
    destruct (state_of B m) as (s & Hvs & Hws & _).
    destruct (refine_run B H Hle (insert enc D prev ks vs) (insert enc D prev ks vs) s st) as [Hll Hor];
      [apply refine_insert|by rewrite Hvs|by rewrite Hws|].
    assert (hinv B H enc L s hs) as Hhi.
    { split; [|by rewrite Hvs]. unfold Jp. rewrite Hvs, Hws. split_and!; [done|done|apply cle_refl|by intros l v]. }
    pose proof (insert_hist Hn B H enc dec Hcodec L s hs D prev M ks vs Hinj Hhi Hp Hb) as Hw.
    apply wp_run in Hw; [|intros x Hx; by apply Hlg, Hll].
    assert (∀ er, out B H (insert enc D prev ks vs) s = RErr er →
      length ks ≠ length vs ∨ ks = [] ∨ ¬ NoDup ks ∨ (∃ v er, v ∈ vs ∧ enc v = Err er) ∨ (is_Some prev ∧ D < 8 * n)) as Her.
    { intros er Ho. rewrite Ho in Hw. destruct Hw as [_ Hw]. naive_solver. }
    assert (∀ er, missing er → out B H (insert enc D prev ks vs) s = RErr er →
      length ks ≠ length vs ∨ ks = [] ∨ ¬ NoDup ks ∨ (∃ v er, v ∈ vs ∧ enc v = Err er)) as Her'.
    { intros er Hm Ho. rewrite Ho in Hw. destruct Hw as [_ Hw].
      destruct Hw as [?|[?|[?|[(v & ? & ?)|(-> & _)]]]]; [naive_solver..|]. by destruct Hm as [?|[?|?]]. }
    destruct Hor as [(e & He & Ho)|(Ho & Hca & Hcb)].
    - specialize (Her e Ho). specialize (Her' e He Ho).
      destruct (out B H (insert enc D prev ks vs) st) as [r|er| |] eqn:Hout; try done.
      apply (any_accepted Hn) in Hout as (? & ? & ? & Hall). destruct Her' as [?|[?|[?|(v & er & Hv & Hev)]]]; try done.
      destruct (Hall v Hv). congruence.
    - rewrite Ho. destruct (out B H (insert enc D prev ks vs) s) as [r|er| |] eqn:Hout; [|by eapply Her|done|done].
      destruct Hw as ([_ Hhs] & Hvv & _ & Hrest). split; [|done]. intros r' M' Hin.
      rewrite Forall_forall in Hhs. destruct (Hhs _ Hin) as (t & Hr & Hwf & Hst & Hpre & Hen). cbn [fst snd] in *. exists t.
      split_and!; try done; [by eapply stored_mono|]. eapply stored_mono; [|exact Hst]. by rewrite Hvv.
  Qed.
  Theorem away_inv L st lg hs : inj_on H (Sof L) → away B1 B H enc dec st lg hs → (∀ x, x ∈ lg → x ∈ L) → ainv L st hs.
  Proof using Hn HB1 HB Hcodec Hle.
    intros Hinj Ha. induction Ha as [st|st lg hs st0 lg0 r M st' Ha IH Hl Hk1 Hk2|st lg hs st' Ha IH Hk|st lg hs D prev M ks vs r Ha IH Hp Hb Ho]; intros Hlg.
    - by intros r M ?%elem_of_nil.
    - intros r' M' [[= -> ->]|Hin]%elem_of_cons.
      + assert (no_collision H lg0) as Hc0.
        { intros x y Hx Hy. apply Hinj; apply Hlg, elem_of_app; by right. }
        destruct (live_handle Hn B1 H enc dec Hcodec st0 lg0 r M Hl Hc0) as (t & Hr & Hwf & Hst & Hpre & He). cbn [fst snd] in *.
        subst r. destruct (Hk1 (troot H t) M) as [Ha1 Ha2]; [by left|]. rewrite bvis_flush in Ha2. exists t. split_and!; try done.
        * by eapply kept_stored.
        * by eapply kept_stored.
        * eapply Forall_impl; [exact Hpre|]. intros x Hx. apply Hlg, elem_of_app. by right.
      + destruct (IH ltac:(intros; apply Hlg, elem_of_app; by left) r' M' Hin) as (t & -> & Hwf & Hs1 & _ & Hpre & He).
        destruct (Hk2 (troot H t) M' Hin) as [Ha1 Ha2]. rewrite bvis_flush in Ha2. exists t. split_and!; try done; by eapply kept_stored.
    - intros r' M' Hin. destruct (IH Hlg r' M' Hin) as (t & -> & Hwf & Hs1 & _ & Hpre & He).
      destruct (Hk (troot H t) M' Hin) as [Ha1 Ha2]. rewrite bvis_flush in Ha2. exists t. split_and!; try done; by eapply kept_stored.
    - pose proof (ainv_insert L st hs D prev M ks vs Hinj (IH ltac:(intros; apply Hlg, elem_of_app; by left)) Hp Hb
        ltac:(intros; apply Hlg, elem_of_app; by right)) as Hi.
      rewrite Ho in Hi. by destruct Hi.
  Qed.
  (** C89 *)
  Theorem away_serves st lg hs r M : away B1 B H enc dec st lg hs → no_collision H lg → (r, M) ∈ hs → serves B H enc dec st r M.
  Proof using Hn HB1 HB Hcodec Hle. intros Ha Hc. eapply ainv_serves. by eapply (away_inv lg). Qed.
  Theorem away_total st lg hs D prev M ks vs : away B1 B H enc dec st lg hs →
    no_collision H (lg ++ hlog B H (insert enc D prev ks vs) st) → prev_holds hs prev M → mild M ks →
    length ks = length vs → ks ≠ [] → NoDup ks → (∀ v, v ∈ vs → ∃ e, enc v = Ok e) → (prev = None ∨ 8 * n ≤ D) →
    ∃ r, out B H (insert enc D prev ks vs) st = ROk r ∧
      serves B H enc dec (fin B H (insert enc D prev ks vs) st) r (updated M ks vs) ∧
      ∀ r0 M0, (r0, M0) ∈ hs → serves B H enc dec (fin B H (insert enc D prev ks vs) st) r0 M0.
  Proof using Hn HB1 HB Hcodec Hle.
    intros Ha Hc Hp Hb Hlen Hne Hnd Hen HD. set (L := lg ++ _) in *.
    assert (ainv L st hs) as Hi. { eapply away_inv; [exact Hc|exact Ha|]. intros x Hx. apply elem_of_app. by left. }
    pose proof (ainv_insert L st hs D prev M ks vs Hc Hi Hp Hb ltac:(intros; apply elem_of_app; by right)) as Hw.
    assert (¬ (length ks ≠ length vs ∨ ks = [] ∨ ¬ NoDup ks ∨ (∃ v er, v ∈ vs ∧ enc v = Err er) ∨ (is_Some prev ∧ D < 8 * n))) as Hno.
    { intros [?|[?|[?|[(v & er & Hv & He)|[Hs ?]]]]]; try done.
      - destruct (Hen v Hv). congruence.
      - destruct HD as [->|]; [by destruct Hs|lia]. }
    destruct (out B H (insert enc D prev ks vs) st) as [r| | |]; try done. destruct Hw as [Hw _].
    exists r. split_and!; [done|eapply ainv_serves; [exact Hw|by left]|]. intros r0 M0 Hin. eapply ainv_serves; [exact Hw|by right].
  Qed.
  (** The roots are those of the home database. *)
  Theorem away_same st lg hs (st0 : b_st B1) lg0 r0 r M : away B1 B H enc dec st lg hs →
    live B1 H enc dec st0 lg0 r0 M → (r, M) ∈ hs → no_collision H (lg ++ lg0) → r = r0.
  Proof using Hn HB1 HB Hcodec Hle.
    intros Ha Hl Hin Hc.
    destruct (away_inv _ st lg hs Hc Ha ltac:(intros; apply elem_of_app; by left) r M Hin) as (t & -> & Hwf & _ & _ & _ & He).
    assert (no_collision H lg0) as Hc0. { intros x y Hx Hy. apply Hc; apply elem_of_app; by right. }
    destruct (live_handle Hn B1 H enc dec Hcodec st0 lg0 r0 M Hl Hc0) as (t' & Hr & Hwf' & _ & _ & He'). cbn [fst snd] in *. subst r0.
    f_equal. apply twf_map_inj; [done|done|]. by eapply encs_fun.
  Qed.
End Moved.
