(** * Trees built from scratch do not depend on what the database contains *)
From Coq Require Import Strings.Byte NArith.
From stdpp Require Import prelude countable gmap sorting strings.
From Verif Require Import Model Spec Bits Util Trie Store Logic Build Reads Insert Get Hist Claims Live Limits.

Local Open Scope nat_scope.

(** [blind p q]: the programs do the same, except for reference counts, whatever nodes they are given. *)
Fixpoint blind {n A} (p q : prog n A) : Prop :=
  match p, q with
  | Ret a, Ret b => a = b
  | Throw e, Throw e' => e = e'
  | Panic, Panic => True
  | Fuel, Fuel => True
  | Hash cs k, Hash cs' k' => cs = cs' ∧ ∀ h, blind (k h) (k' h)
  | Get l k, Get l' k' => l = l' ∧ ∀ o o', blind (k o) (k' o')
  | Put l nd k, Put l' nd' k' => l = l' ∧ var nd = var nd' ∧ blind k k'
  | Flush k, Flush k' => blind k k'
  | _, _ => False
  end.

Section Blind.
  Context {n : nat}.
  Lemma blind_bind {A C} (p q : prog n A) (f g : A → prog n C) : blind p q → (∀ a, blind (f a) (g a)) →
    blind (p ≫= f) (q ≫= g).
  Proof.
    intros Hp Hf. unfold mbind, prog_bind. revert q Hp.
    induction p as [a|e| | |cs k IH|l k IH|l nd k IH|l k IH|k IH]; intros [b|e'| | |cs' k'|l' k'|l' nd' k'|l' k'|k'] Hp;
      simpl in *; try done.
    - subst. done.
    - destruct Hp as [-> Hp]. split; [done|]. intros h. by apply IH.
    - destruct Hp as [-> Hp]. split; [done|]. intros o o'. by apply IH.
    - destruct Hp as (-> & ? & Hp). split_and!; [done|done|]. by apply IH.
    - by apply IH.
  Qed.
  Lemma blind_lift {A} (r : res A) : blind (n := n) (lift r) (lift r).
  Proof. by destruct r. Qed.
  Lemma blind_hash cs : blind (n := n) (hash cs) (hash cs).
  Proof. by split. Qed.

  Lemma blind_leaves {V} (enc : V → res bytes) vm (ks : list (arr n)) : blind (insert_leaves enc vm ks) (insert_leaves enc vm ks).
  Proof.
    induction ks as [|k ks IH]; cbn [insert_leaves]; [done|]. apply blind_bind; [|intros l; by apply blind_bind].
    unfold insert_leaves_one. destruct (vm !! k) as [v|]; [|done]. apply blind_bind; [apply blind_lift|]. intros e.
    apply blind_bind; [apply blind_hash|]. intros d. apply blind_bind; [apply blind_hash|]. intros l. cbn. done.
  Qed.
  Lemma blind_merge_one (rs : list (tref n)) it : blind (merge_one rs it) (merge_one rs it).
  Proof.
    destruct it as [[si p] next]. unfold merge_one. repeat (apply blind_bind; [apply blind_lift|]; intros ?).
    apply blind_bind; [apply blind_hash|]. intros b. by cbn.
  Qed.
  Lemma blind_merge_level (rs : list (tref n)) root lv : blind (merge_level rs root lv) (merge_level rs root lv).
  Proof.
    revert rs root. induction lv as [|it lv IH]; intros rs root; cbn [merge_level]; [done|].
    apply blind_bind; [apply blind_merge_one|]. intros r. apply IH.
  Qed.
  Lemma blind_merge_all (rs : list (tref n)) root lvs : blind (merge_all rs root lvs) (merge_all rs root lvs).
  Proof.
    revert rs root. induction lvs as [|lv lvs IH]; intros rs root; cbn [merge_all]; [done|].
    apply blind_bind; [|intros r; apply IH]. unfold merge_nodes. apply blind_bind; [apply blind_merge_level|]. intros r. by cbn.
  Qed.
  Lemma blind_create (rs : list (tref n)) : blind (create_tree rs) (create_tree rs).
  Proof.
    unfold create_tree. destruct rs as [|r1 [|r2 rs]]; [done|done|]. apply blind_bind; [apply blind_lift|]. intros its.
    apply blind_bind; [apply blind_merge_all|]. by intros [].
  Qed.
  Lemma blind_insert {V} (enc : V → res bytes) D D' (ks : list (arr n)) vs :
    blind (insert enc D None ks vs) (insert enc D' None ks vs).
  Proof.
    unfold insert. case_match; [done|]. case_match; [done|]. unfold insert_sorted.
    apply blind_bind; [apply blind_leaves|]. intros ls. apply blind_bind; [done|]. intros ps. apply blind_create.
  Qed.

  Section Run.
    Context (B1 B2 : backend n) {HB1 : BackendOk B1} {HB2 : BackendOk B2} (H : list bytes → arr n).
    Lemma blind_run {A} (p q : prog n A) s1 s2 : blind p q → cle (bview s1) (bview s2) →
      out B1 H p s1 = out B2 H q s2 ∧ hlog B1 H p s1 = hlog B2 H q s2 ∧
      cle (bview (fin B1 H p s1)) (bview (fin B2 H q s2)).
    Proof using.
      unfold out, fin, hlog. revert q s1 s2.
      induction p as [a|e| | |cs k IH|l k IH|l nd k IH|l k IH|k IH];
        intros [b|e'| | |cs' k'|l' k'|l' nd' k'|l' k'|k'] s1 s2 Hp Hc; simpl in Hp; try done; cbn [run].
      - by subst.
      - by subst.
      - destruct Hp as [<- Hp]. specialize (IH (H cs) (k' (H cs)) s1 s2 (Hp _) Hc).
        destruct (run B1 H (k (H cs)) s1) as [[o1 t1] l1], (run B2 H (k' (H cs)) s2) as [[o2 t2] l2]. cbn in *.
        destruct IH as (-> & -> & ?). done.
      - destruct Hp as [<- Hp]. by apply IH.
      - destruct Hp as (<- & Hv & Hp). apply IH; [done|]. rewrite !bview_put. intros x v. unfold has.
        destruct (decide (x = l)) as [->|]; [rewrite !lookup_insert|rewrite !lookup_insert_ne by done; apply Hc].
        cbn. by rewrite Hv.
      - apply IH; [done|]. by rewrite !bview_flush.
    Qed.
    Lemma blind_run_out {A} (p q : prog n A) s1 s2 : blind p q →
      out B1 H p s1 = out B2 H q s2 ∧ hlog B1 H p s1 = hlog B2 H q s2.
    Proof using.
      unfold out, hlog. revert q s1 s2.
      induction p as [a|e| | |cs k IH|l k IH|l nd k IH|l k IH|k IH];
        intros [b|e'| | |cs' k'|l' k'|l' nd' k'|l' k'|k'] s1 s2 Hp; simpl in Hp; try done; cbn [run].
      - by subst.
      - by subst.
      - destruct Hp as [<- Hp]. specialize (IH (H cs) (k' (H cs)) s1 s2 (Hp _)).
        destruct (run B1 H (k (H cs)) s1) as [[o1 t1] l1], (run B2 H (k' (H cs)) s2) as [[o2 t2] l2]. cbn in *.
        destruct IH as (-> & ->). done.
      - destruct Hp as [<- Hp]. by apply IH.
      - destruct Hp as (<- & Hv & Hp). by apply IH.
      - by apply IH.
    Qed.
  End Run.
  Lemma cw_bpend (B : backend n) {HB : BackendOk B} {A} (p : prog n A) (H : list bytes → arr n) (c : Prop) (st : b_st B) a :
    cw c p (λ c' _, c') → (c → bpend st = []) → out B H p st = ROk a → bpend (fin B H p st) = [].
  Proof.
    unfold out, fin. revert c st.
    induction p as [x|e| | |cs k IH|l k IH|l nd k IH|l k IH|k IH]; intros c st Hp Hc; simpl in *; try done.
    - by intros _; apply Hc.
    - specialize (IH (H cs) c st (Hp _) Hc). by destruct (run B H (k (H cs)) st) as [[]].
    - by apply (IH _ c).
    - by apply (IH False).
    - apply (IH c); [done|]. by rewrite bpend_del.
    - apply (IH True); [done|]. by rewrite bpend_flush.
  Qed.
  Lemma insert_bpend (B : backend n) {HB : BackendOk B} (H : list bytes → arr n) {V} (enc : V → res bytes) D prev ks vs st r :
    out B H (insert enc D prev ks vs) st = ROk r → bpend (fin B H (insert enc D prev ks vs) st) = [].
  Proof.
    intros Ho. apply (cw_bpend B _ H False st r); [|done|exact Ho]. unfold insert. case_match; [done|]. case_match; [done|].
    apply insert_sorted_commits.
  Qed.
End Blind.

Section Scratch.
  Context {n : nat} (Hn : 0 < n) (B : backend n) {HB : BackendOk B} (H : list bytes → arr n).
  Context {V : Type} (enc : V → res bytes) (dec : bytes → res V) (Hcodec : codec_ok enc dec).
  (** Any two databases, of any backends, in any state. *)
  Theorem scratch_same (B' : backend n) {HB' : BackendOk B'} D D' (ks : list (arr n)) (vs : list V) (st : b_st B) (st' : b_st B') :
    out B H (insert enc D None ks vs) st = out B' H (insert enc D' None ks vs) st' ∧
    hlog B H (insert enc D None ks vs) st = hlog B' H (insert enc D' None ks vs) st'.
  Proof using. apply blind_run_out, blind_insert. Qed.
  Theorem scratch_serves D (ks : list (arr n)) (vs : list V) (st : b_st B) r :
    no_collision H (hlog B H (insert enc D None ks vs) st) → out B H (insert enc D None ks vs) st = ROk r →
    serves B H enc dec (fin B H (insert enc D None ks vs) st) r (list_to_map (zip ks vs)).
  Proof using Hn HB Hcodec.
    intros Hc Ho. set (p := insert enc D None ks vs) in *.
    destruct (blind_run B B H p p (b_init B) st (blind_insert enc D D ks vs)) as (Ho' & Hl' & Hcle).
    { rewrite bview_init. by intros l v. }
    rewrite Ho in Ho'. rewrite <- Hl' in Hc.
    assert (hist B H enc dec (fin B H p (b_init B)) ([] ++ hlog B H p (b_init B)) [(r, updated ∅ ks vs)]) as Hh.
    { eapply (hist_insert B H enc dec _ _ _ D None); [apply hist_init|done|left; apply benign_empty|exact Ho']. }
    destruct (hist_hinv Hn B H enc dec Hcodec _ _ _ (hlog B H p (b_init B)) Hh) as [_ Hhs]; [done|done|].
    apply Forall_cons in Hhs as [Hhs _]. unfold updated in Hhs. rewrite (right_id_L ∅ (∪)) in Hhs.
    eapply (handle_serves Hn B H enc dec Hcodec). eapply handle_mono; [|exact Hhs].
    intros l v. unfold has. pose proof (insert_bpend B H enc D None ks vs _ r Ho) as Hp1.
    pose proof (insert_bpend B H enc D None ks vs _ r Ho') as Hp2. fold p in Hp1, Hp2.
    rewrite (bvis_view (fin B H p (b_init B))), (bvis_view (fin B H p st)) by (rewrite ?Hp1, ?Hp2; apply not_elem_of_nil). apply Hcle.
  Qed.
  Theorem scratch_total D (ks : list (arr n)) (vs : list V) (st : b_st B) :
    no_collision H (hlog B H (insert enc D None ks vs) st) →
    length ks = length vs → ks ≠ [] → NoDup ks → (∀ v, v ∈ vs → ∃ e, enc v = Ok e) →
    ∃ r, out B H (insert enc D None ks vs) st = ROk r ∧
      serves B H enc dec (fin B H (insert enc D None ks vs) st) r (list_to_map (zip ks vs)).
  Proof using Hn HB Hcodec.
    intros Hc Hl Hne Hnd He. pose proof Hc as Hc0. destruct (scratch_same B D D ks vs st (b_init B)) as [Ho Hlg]. rewrite Hlg in Hc.
    destruct (insert_empty_holds Hn B H enc dec Hcodec (b_init B) [] [] D ks vs) as (r & Hr & _); try done; [apply hist_init|].
    exists r. rewrite Hr in Ho. split; [done|]. by apply scratch_serves.
  Qed.
End Scratch.
