(** * Backend laws and a weakest-precondition calculus for programs *)
From Coq Require Import Strings.Byte NArith.
From stdpp Require Import prelude countable gmap sorting strings.
From Verif Require Import Model Bits Util Trie Store.

Local Open Scope nat_scope.

(** [bview]: what reads would see after a [batch_write]; [bpend]: the locations
    with a queued write. *)
Class BackendOk {n} (B : backend n) := {
  bview : b_st B → db n;
  bpend : b_st B → list (arr n);
  bvis_init : b_vis B (b_init B) = ∅;
  bview_init : bview (b_init B) = ∅;
  bpend_init : bpend (b_init B) = [];
  bview_put s l nd : bview (b_put B s l nd) = <[l := nd]> (bview s);
  bvis_put s l nd : b_vis B (b_put B s l nd) = b_vis B s ∨
                    b_vis B (b_put B s l nd) = bview (b_put B s l nd);
  bdom_put s l nd l' : is_Some (b_vis B (b_put B s l nd) !! l') → l' = l ∨ is_Some (b_vis B s !! l');
  bpend_put s l nd l' : l' ∈ bpend (b_put B s l nd) → l' = l ∨ l' ∈ bpend s;
  bvis_view s l : l ∉ bpend s → b_vis B s !! l = bview s !! l;
  bvis_del s l : b_vis B (b_del B s l) = delete l (b_vis B s);
  bview_del s l : l ∉ bpend s → bview (b_del B s l) = delete l (bview s);
  bview_del_sub s l l' nd : bview (b_del B s l) !! l' = Some nd → bview s !! l' = Some nd;
  bview_del_ne s l l' : l' ≠ l → bview (b_del B s l) !! l' = bview s !! l';
  bpend_del s l : bpend (b_del B s l) = bpend s;
  bvis_flush s : b_vis B (b_flush B s) = bview s;
  bview_flush s : bview (b_flush B s) = bview s;
  bpend_flush s : bpend (b_flush B s) = [];
  bvis_drop s : b_vis B (b_drop B s) = b_vis B s;
  bview_drop s : bview (b_drop B s) = b_vis B s;
  bpend_drop s : bpend (b_drop B s) = [];
}.

Lemma apply_batch_app {n} (m : db n) b1 b2 :
  apply_batch m (b1 ++ b2) = apply_batch (apply_batch m b1) b2.
Proof. unfold apply_batch. apply foldl_app. Qed.
Lemma apply_batch_lookup {n} (m : db n) b l :
  l ∉ b.*1 → apply_batch m b !! l = m !! l.
Proof.
  revert m. induction b as [|[l' nd] b IH]; intros m Hl; [done|]. simpl.
  rewrite fmap_cons in Hl. apply not_elem_of_cons in Hl as [Hne Hl].
  simpl in Hne. etrans; [by apply IH|]. by rewrite lookup_insert_ne.
Qed.
Lemma apply_batch_delete {n} (m : db n) b l :
  l ∉ b.*1 → apply_batch (delete l m) b = delete l (apply_batch m b).
Proof.
  revert m. induction b as [|[l' nd] b IH]; intros m Hl; [done|]. simpl.
  rewrite fmap_cons in Hl. apply not_elem_of_cons in Hl as [Hne Hl]. simpl in Hne.
  rewrite <- delete_insert_ne by done. by apply IH.
Qed.
Lemma apply_batch_delete_ne {n} (m : db n) b l l' :
  l' ≠ l → apply_batch (delete l m) b !! l' = apply_batch m b !! l'.
Proof.
  intros Hne. unfold apply_batch.
  assert (∀ m1 m2 : db n, m1 !! l' = m2 !! l' →
    foldl (λ m p, <[p.1 := p.2]> m) m1 b !! l' = foldl (λ m p, <[p.1 := p.2]> m) m2 b !! l') as Hgo.
  { induction b as [|[l0 nd] b IH]; intros m1 m2 Heq; [done|]. cbn [foldl fst snd]. apply IH.
    destruct (decide (l0 = l')) as [->|Hne']; [by rewrite !lookup_insert|]. by rewrite !lookup_insert_ne. }
  apply Hgo. by rewrite lookup_delete_ne.
Qed.

Lemma apply_batch_sub {n} (m m' : db n) b : m ⊆ m' → apply_batch m b ⊆ apply_batch m' b.
Proof.
  revert m m'. induction b as [|[l nd] b IH]; intros m m' Hm; [done|]. apply IH.
  by apply insert_mono.
Qed.

Global Program Instance hash_db_ok n : BackendOk (hash_db n) :=
  {| bview := λ m, m; bpend := λ _, [] |}.
Next Obligation. done. Qed.
Next Obligation. done. Qed.
Next Obligation. done. Qed.
Next Obligation. done. Qed.
Next Obligation. intros. by right. Qed.
Next Obligation.
  intros n s l nd l' [x Hx]. simpl in Hx.
  apply lookup_insert_Some in Hx as [[-> _]|[_ Hx]]; [by left|]. right. by exists x.
Qed.
Next Obligation. intros; simpl; auto. Qed.
Next Obligation. done. Qed.
Next Obligation. done. Qed.
Next Obligation. done. Qed.
Next Obligation. intros n s l l' nd Hl. simpl in *. by apply lookup_delete_Some in Hl as [_ ?]. Qed.
Next Obligation. intros n s l l' Hne. simpl. by rewrite lookup_delete_ne. Qed.
Solve Obligations with (intros; simpl; auto).

Global Program Instance rocks_db_ok n : BackendOk (rocks_db n) :=
  {| bview := λ s, apply_batch (committed s) (pending s); bpend := λ s, (pending s).*1 |}.
Next Obligation. done. Qed.
Next Obligation. done. Qed.
Next Obligation. done. Qed.
Next Obligation. intros n s l nd. simpl. by rewrite apply_batch_app. Qed.
Next Obligation. intros n s l nd. by left. Qed.
Next Obligation. intros n s l nd l'. by right. Qed.
Next Obligation.
  intros n s l nd l'. simpl. rewrite fmap_app, elem_of_app. simpl.
  rewrite elem_of_list_singleton. naive_solver.
Qed.
Next Obligation. intros n s l Hl. simpl in *. by rewrite apply_batch_lookup. Qed.
Next Obligation. done. Qed.
Next Obligation. intros n s l Hl. simpl in *. by apply apply_batch_delete. Qed.
Next Obligation.
  intros n s l l' nd Hl. simpl in *. eapply lookup_weaken; [exact Hl|].
  apply apply_batch_sub, delete_subseteq.
Qed.
Next Obligation. intros n s l l' Hne. simpl. by apply apply_batch_delete_ne. Qed.
Solve Obligations with done.

(** ** Weakest preconditions
    [S] contains the strings hashed, [J] holds in every state the execution
    goes through, [Q] in the final state of a normal return, [E] in that of an
    error.  Panics and loop-bound exhaustion are excluded. *)
Section WP.
  Context {n : nat} (B : backend n) (H : list bytes → arr n).
  Context (S : list bytes → Prop) (J : b_st B → Prop).

  Fixpoint wp {A} (p : prog n A) (Q : A → b_st B → Prop) (E : string → b_st B → Prop)
      (s : b_st B) : Prop :=
    match p with
    | Ret a => Q a s
    | Throw e => E e s
    | Panic => False
    | Fuel => False
    | Hash cs k => S cs → wp (k (H cs)) Q E s
    | Get l k => wp (k (b_vis B s !! l)) Q E s
    | Put l nd k => J (b_put B s l nd) ∧ wp k Q E (b_put B s l nd)
    | Del l k => J (b_del B s l) ∧ wp k Q E (b_del B s l)
    | Flush k => J (b_flush B s) ∧ wp k Q E (b_flush B s)
    end.

  Lemma wp_bind {A C} (f : A → prog n C) p Q E s :
    wp p (λ a s', wp (f a) Q E s') E s → wp (p ≫= f) Q E s.
  Proof.
    revert s. induction p as [a|e| | |cs k IH|l k IH|l nd k IH|l k IH|k IH];
      intros s; simpl; auto; naive_solver.
  Qed.
  Lemma wp_mono {A} (p : prog n A) (Q Q' : A → b_st B → Prop) (E E' : string → b_st B → Prop) s :
    (∀ a s, Q a s → Q' a s) → (∀ e s, E e s → E' e s) → wp p Q E s → wp p Q' E' s.
  Proof.
    intros HQ HE. revert s. induction p as [a|e| | |cs k IH|l k IH|l nd k IH|l k IH|k IH];
      intros s; simpl; auto; naive_solver.
  Qed.
  Lemma wp_lift_ok {A} (r : res A) a (Q : A → b_st B → Prop) E s : r = Ok a → Q a s → wp (lift r) Q E s.
  Proof. by intros -> ?. Qed.

  Lemma wp_run {A} (p : prog n A) Q E s :
    wp p Q E s → (∀ x, x ∈ hlog B H p s → S x) →
    match out B H p s with
    | ROk a => Q a (fin B H p s)
    | RErr e => E e (fin B H p s)
    | _ => False
    end.
  Proof.
    unfold out, fin, hlog. revert s.
    induction p as [a|e| | |cs k IH|l k IH|l nd k IH|l k IH|k IH]; intros s; simpl; auto.
    - intros Hw Hs. specialize (IH (H cs) s). destruct (run B H (k (H cs)) s) as [[o s'] log].
      simpl in *. apply IH; [apply Hw, Hs; by left|]. intros; apply Hs; by right.
    - intros Hw Hs. by apply IH.
    - intros [_ Hw] Hs. by apply IH.
    - intros [_ Hw] Hs. by apply IH.
    - intros [_ Hw] Hs. by apply IH.
  Qed.
  Lemma wp_states {A} (p : prog n A) Q E s :
    J s → wp p Q E s → (∀ x, x ∈ hlog B H p s → S x) → Forall J (states B H p s).
  Proof.
    unfold hlog. revert s.
    induction p as [a|e| | |cs k IH|l k IH|l nd k IH|l k IH|k IH]; intros s HJ; simpl; auto.
    - intros Hw Hs. constructor; [done|].
      specialize (IH (H cs) s). destruct (run B H (k (H cs)) s) as [[o s'] log].
      simpl in *. apply IH; [done|apply Hw, Hs; by left|]. intros; apply Hs; by right.
    - intros [? Hw] Hs. constructor; [done|]. eapply IH; eauto.
    - intros [? Hw] Hs. constructor; [done|]. eapply IH; eauto.
    - intros [? Hw] Hs. constructor; [done|]. eapply IH; eauto.
  Qed.
  Lemma run_in_states {A} (p : prog n A) s : fin B H p s ∈ states B H p s.
  Proof.
    unfold fin. revert s.
    induction p as [a|e| | |cs k IH|l k IH|l nd k IH|l k IH|k IH]; intros s; simpl; try by left.
    - specialize (IH (H cs) s). destruct (run B H (k (H cs)) s) as [[o s'] log]. by right.
    - right. apply IH.
    - right. apply IH.
    - right. apply IH.
    - right. apply IH.
  Qed.
  (** A fault leaves one of the states, possibly with the queue lost. *)
  Lemma run_fault_states {A} i (p : prog n A) s :
    (run_fault B H i p s).2 ∈ states B H p s ∨
    ∃ s', s' ∈ states B H p s ∧ (run_fault B H i p s).2 = b_drop B s'.
  Proof.
    revert i s.
    induction p as [a|e| | |cs k IH|l k IH|l nd k IH|l k IH|k IH]; intros i s; simpl;
      try (left; by left).
    - destruct (IH (H cs) i s) as [?|(s' & ? & ?)]; [left; by right|].
      right. exists s'. split; [by right|done].
    - destruct i as [|i]; [left; by left|].
      destruct (IH (b_vis B s !! l) i s) as [?|(s' & ? & ?)]; [left; by right|].
      right. exists s'. split; [by right|done].
    - destruct i as [|i]; [left; by left|].
      destruct (IH i (b_put B s l nd)) as [?|(s' & ? & ?)]; [left; by right|].
      right. exists s'. split; [by right|done].
    - destruct i as [|i]; [left; by left|].
      destruct (IH i (b_del B s l)) as [?|(s' & ? & ?)]; [left; by right|].
      right. exists s'. split; [by right|done].
    - destruct i as [|i]; [right; exists s; split; [by left|done]|].
      destruct (IH i (b_flush B s)) as [?|(s' & ? & ?)]; [left; by right|].
      right. exists s'. split; [by right|done].
  Qed.
End WP.

Lemma wp_weaken {n} (B : backend n) H (S S' : list bytes → Prop) (J J' : b_st B → Prop) {A}
    (p : prog n A) Q E s :
  (∀ x, S' x → S x) → (∀ s, J s → J' s) → wp B H S J p Q E s → wp B H S' J' p Q E s.
Proof.
  intros HS HJ. revert s. induction p as [a|e| | |cs k IH|l k IH|l nd k IH|l k IH|k IH];
    intros s; simpl; auto; naive_solver.
Qed.

(** ** Programs that only queue writes *)
Section Queued.
  Context {n : nat} (B : backend n).
  (** [s'] is [s] after some [insert]s. *)
  Definition queued (s s' : b_st B) : Prop :=
    ∃ q : list (arr n * node n), s' = foldl (λ s p, b_put B s p.1 p.2) s q.
  Lemma queued_refl s : queued s s.
  Proof using. by exists []. Qed.
  Lemma queued_trans s1 s2 s3 : queued s1 s2 → queued s2 s3 → queued s1 s3.
  Proof using. intros [q1 ->] [q2 ->]. exists (q1 ++ q2). by rewrite foldl_app. Qed.
  Lemma queued_put s l nd : queued s (b_put B s l nd).
  Proof using. by exists [(l, nd)]. Qed.

  Fixpoint puts_only {A} (p : prog n A) : Prop :=
    match p with
    | Ret _ | Throw _ | Panic | Fuel => True
    | Hash cs k => ∀ h, puts_only (k h)
    | Get l k => ∀ o, puts_only (k o)
    | Put l nd k => puts_only k
    | Del _ _ | Flush _ => False
    end.
  Lemma puts_only_bind {A C} (p : prog n A) (f : A → prog n C) :
    puts_only p → (∀ a, puts_only (f a)) → puts_only (p ≫= f).
  Proof using.
    induction p as [a|e| | |cs k IH|l k IH|l nd k IH|l k IH|k IH]; cbn; try done; intros Hp Hf;
      intros ?; by apply IH.
  Qed.
  Lemma puts_only_lift {A} (r : res A) : puts_only (lift r).
  Proof using. by destruct r. Qed.
  Lemma wp_queued H S J {A} (p : prog n A) Q E s : puts_only p → wp B H S J p Q E s →
    wp B H S J p (λ a s', Q a s' ∧ queued s s') (λ er s', E er s' ∧ queued s s') s.
  Proof using.
    intros Hp Hw.
    assert (∀ s1, queued s s1 → wp B H S J p Q E s1 →
      wp B H S J p (λ a s', Q a s' ∧ queued s s') (λ er s', E er s' ∧ queued s s') s1) as Hx.
    { clear Hw. induction p as [a|e| | |cs k IH|l k IH|l nd k IH|l k IH|k IH]; intros s1 Hq; cbn in *; try done.
      - intros Hw HS. by apply IH; [|done|apply Hw].
      - intros Hw. by apply IH.
      - intros [HJ Hw]. split; [done|]. apply IH; [done| |done].
        eapply queued_trans; [done|]. apply queued_put. }
    apply Hx; [apply queued_refl|done].
  Qed.
End Queued.
