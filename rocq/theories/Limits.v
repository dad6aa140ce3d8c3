(** * Raising the depth limit; what a restart loses after a successful call *)
From Coq Require Import Strings.Byte NArith.
From stdpp Require Import prelude countable gmap sorting strings.
From Verif Require Import Model Spec Total.

Local Open Scope nat_scope.

(** ** Programs that differ only where one of them stops at the limit *)
Section Lim.
  Context {n : nat} (msg : string).

  Inductive lim {A} : prog n A → prog n A → Prop :=
  | lim_ret a : lim (Ret a) (Ret a)
  | lim_throw e : lim (Throw e) (Throw e)
  | lim_panic : lim Panic Panic
  | lim_fuel p : lim Fuel p
  | lim_depth p : lim (Throw msg) p
  | lim_hash cs k k' : (∀ l, lim (k l) (k' l)) → lim (Hash cs k) (Hash cs k')
  | lim_get l k k' : (∀ o, lim (k o) (k' o)) → lim (Get l k) (Get l k')
  | lim_put l nd k k' : lim k k' → lim (Put l nd k) (Put l nd k')
  | lim_del l k k' : lim k k' → lim (Del l k) (Del l k')
  | lim_flush k k' : lim k k' → lim (Flush k) (Flush k').

  Lemma lim_refl {A} (p : prog n A) : lim p p.
  Proof. induction p; by constructor. Qed.
  Lemma lim_bind {A C} (p p' : prog n A) (f f' : A → prog n C) : lim p p' → (∀ a, lim (f a) (f' a)) →
    lim (p ≫= f) (p' ≫= f').
  Proof.
    intros Hp Hf. unfold mbind, prog_bind.
    induction Hp; cbn [pbind]; try apply Hf; constructor; auto.
  Qed.
  Lemma lim_run {A} (B : backend n) (H : list bytes → arr n) (p p' : prog n A) st : lim p p' →
    out B H p st = RErr msg ∨ out B H p st = RFuel ∨ run B H p st = run B H p' st.
  Proof.
    intros Hp. revert st. unfold out.
    induction Hp as [| | | | |cs k k' _ IH|l k k' _ IH| | |]; intros st; cbn [run]; auto.
    destruct (IH (H cs) st) as [Heq|[Heq|Heq]]; [left|right; left|right; right];
      destruct (run B H (k (H cs)) st) as [[] ?]; cbn in Heq |- *; try done. by rewrite <- Heq.
  Qed.
End Lim.

Section Raise.
  Context {n : nat} (B : backend n) (H : list bytes → arr n).
  Context {V : Type} (enc : V → res bytes) (dec : bytes → res V).
  Context (D D' : nat) (HD : D ≤ D').
  Notation m1 := "Depth limit exceeded"%string.
  Notation m2 := "Depth of merkle tree exceeded"%string.

  Local Ltac go := repeat first
    [ apply lim_refl | apply lim_bind; [apply lim_refl|intros ?] | case_match ].

  Lemma get_one_lim f f' k d b l : f ≤ f' → lim m1 (get_one_loop dec D f k d b l) (get_one_loop (n := n) dec D' f' k d b l).
  Proof using HD.
    revert f' d b l. induction f as [|f IH]; intros f' d b l Hf; [constructor|].
    destruct f' as [|f']; [lia|]. cbn [get_one_loop].
    destruct (Nat.ltb_spec D d); [constructor|]. destruct (Nat.ltb_spec D' d); [lia|].
    go; apply IH; lia.
  Qed.
  Lemma gen_proof_lim f f' k d b acc l : f ≤ f' →
    lim m1 (gen_proof_loop D f k d b acc l) (gen_proof_loop (n := n) D' f' k d b acc l).
  Proof using HD.
    revert f' d b acc l. induction f as [|f IH]; intros f' d b acc l Hf; [constructor|].
    destruct f' as [|f']; [lia|]. cbn [gen_proof_loop].
    destruct (Nat.ltb_spec D d); [constructor|]. destruct (Nat.ltb_spec D' d); [lia|].
    go; apply IH; lia.
  Qed.
  Lemma get_lim f f' ks lm q : f ≤ f' → lim m2 (get_loop dec D f ks lm q) (get_loop (n := n) dec D' f' ks lm q).
  Proof using HD.
    revert f' lm q. induction f as [|f IH]; intros f' lm q Hf; destruct q as [|c q].
    1,3: destruct f'; cbn; apply lim_refl. 1: constructor.
    destruct f' as [|f']; [lia|]. cbn [get_loop].
    destruct (Nat.ltb_spec D (cdepth c)); [constructor|]. destruct (Nat.ltb_spec D' (cdepth c)); [lia|].
    go; apply IH; lia.
  Qed.
  Lemma traverse_lim f f' km acc q : f ≤ f' → lim m2 (traverse_tree D f km acc q) (traverse_tree (n := n) D' f' km acc q).
  Proof using HD.
    revert f' acc q. induction f as [|f IH]; intros f' acc q Hf; destruct q as [|c q].
    1,3: destruct f'; cbn; apply lim_refl. 1: constructor.
    destruct f' as [|f']; [lia|]. cbn [traverse_tree].
    destruct (Nat.ltb_spec D (cdepth c)); [constructor|]. destruct (Nat.ltb_spec D' (cdepth c)); [lia|].
    go; try (apply IH; lia).
  Qed.
  Lemma insert_sorted_lim prev ks m : lim m2 (insert_sorted enc D prev ks m) (insert_sorted (n := n) enc D' prev ks m).
  Proof using HD.
    unfold insert_sorted, generate_treerefs. apply lim_bind; [apply lim_refl|intros locs].
    apply lim_bind; [|intros; apply lim_refl]. destruct prev as [r|]; [|apply lim_refl].
    apply lim_bind; [apply lim_refl|intros [nd|]]; [|apply lim_refl].
    apply traverse_lim. unfold traverse_fuel. nia.
  Qed.
  Lemma insert_lim prev ks vs : lim m2 (insert enc D prev ks vs) (insert (n := n) enc D' prev ks vs).
  Proof using HD. unfold insert. case_match; [apply lim_refl|]. case_match; [apply lim_refl|]. apply insert_sorted_lim. Qed.

  Theorem raise_limit st :
    (∀ r k, out B H (get_one dec D r k) st = RErr m1 ∨
       run B H (get_one dec D' r k) st = run B H (get_one dec D r k) st) ∧
    (∀ r k, out B H (generate_inclusion_proof D r k) st = RErr m1 ∨
       run B H (generate_inclusion_proof D' r k) st = run B H (generate_inclusion_proof D r k) st) ∧
    (∀ r ks, out B H (get dec D r ks) st = RErr m2 ∨
       run B H (get dec D' r ks) st = run B H (get dec D r ks) st) ∧
    (∀ prev ks vs, out B H (insert enc D prev ks vs) st = RErr m2 ∨
       run B H (insert enc D' prev ks vs) st = run B H (insert enc D prev ks vs) st) ∧
    (∀ prev k v, out B H (insert_one enc D prev k v) st = RErr m2 ∨
       run B H (insert_one enc D' prev k v) st = run B H (insert_one enc D prev k v) st).
  Proof using HD.
    destruct (calls_terminate B H enc dec st) as (T1 & T2 & T3 & T4). split_and!.
    - intros r k. destruct (lim_run m1 B H (get_one dec D r k) (get_one dec D' r k) st) as [|[Hf|]]; auto.
      + apply get_one_lim. lia.
      + by destruct (T2 D r k).
    - intros r k. destruct (lim_run m1 B H (generate_inclusion_proof D r k) (generate_inclusion_proof D' r k) st) as [|[Hf|]]; auto.
      + apply gen_proof_lim. lia.
      + by destruct (T3 D r k).
    - intros r ks. destruct (lim_run m2 B H (get dec D r ks) (get dec D' r ks) st) as [|[Hf|]]; auto.
      + unfold get. destruct ks; [apply lim_refl|]. apply lim_bind; [apply lim_refl|intros [nd|]]; [|apply lim_refl].
        apply get_lim. unfold traverse_fuel. nia.
      + by destruct (T1 D r ks).
    - intros prev ks vs. destruct (lim_run m2 B H (insert enc D prev ks vs) (insert enc D' prev ks vs) st) as [|[Hf|]]; auto.
      + apply insert_lim.
      + by destruct (T4 D prev ks vs).
    - intros prev k v. destruct (lim_run m2 B H (insert_one enc D prev k v) (insert_one enc D' prev k v) st) as [|[Hf|]]; auto.
      + apply insert_sorted_lim.
      + by destruct (T4 D prev [k] [v]).
  Qed.
End Raise.

(** ** Programs that commit before they return
    [cw c p Q]: [c] holds if the queue is empty before [p]; on a normal return
    of [a], [Q c' a] where [c'] holds if it is empty then. *)
Fixpoint cw {n A} (c : Prop) (p : prog n A) (Q : Prop → A → Prop) : Prop :=
  match p with
  | Ret a => Q c a
  | Throw _ | Panic | Fuel => True
  | Hash _ k => ∀ h, cw c (k h) Q
  | Get _ k => ∀ o, cw c (k o) Q
  | Put _ _ k => cw False k Q
  | Del _ k => cw c k Q
  | Flush k => cw True k Q
  end.
Section Commits.
  Context {n : nat}.
  Lemma cw_bind {A C} (p : prog n A) (f : A → prog n C) c Q :
    cw c p (λ c' a, cw c' (f a) Q) → cw c (p ≫= f) Q.
  Proof. unfold mbind, prog_bind. revert c. induction p; intros c; simpl; auto. Qed.
  Lemma cw_all {A} (p : prog n A) c (Q : Prop → A → Prop) : (∀ c' a, Q c' a) → cw c p Q.
  Proof. intros HQ. revert c. induction p; intros c; simpl; auto. Qed.
  Lemma cw_mono {A} (p : prog n A) c (Q Q' : Prop → A → Prop) : (∀ c' a, Q c' a → Q' c' a) → cw c p Q → cw c p Q'.
  Proof. intros HQ. revert c. induction p; intros c; simpl; auto. Qed.
  Lemma cw_run {A} (p : prog n A) (H : list bytes → arr n) (c : Prop) (st : rocks_st n) a :
    cw c p (λ c' _, c') → (c → pending st = []) → out (rocks_db n) H p st = ROk a →
    pending (fin (rocks_db n) H p st) = [].
  Proof.
    unfold out, fin. revert c st.
    induction p as [x|e| | |cs k IH|l k IH|l nd k IH|l k IH|k IH]; intros c st Hp Hc; simpl in *; try done.
    - by intros _; apply Hc.
    - specialize (IH (H cs) c st (Hp _) Hc). by destruct (run (rocks_db n) H (k (H cs)) st) as [[]].
    - by apply (IH _ c).
    - by apply (IH False).
    - by apply (IH c).
    - by apply (IH True).
  Qed.

  Lemma merge_all_commits (rs : list (tref n)) root levels (c : Prop) : (root ≠ None → c) →
    cw c (merge_all rs root levels) (λ c' o, o ≠ None → c').
  Proof.
    revert rs root c. induction levels as [|lv levels IH]; intros rs root c Hc; cbn [merge_all]; [done|].
    apply cw_bind. unfold merge_nodes. apply cw_bind, cw_all. intros c' r. cbn. by apply IH.
  Qed.
  Lemma create_tree_commits (rs : list (tref n)) c : cw c (create_tree rs) (λ c' _, c').
  Proof.
    unfold create_tree. destruct rs as [|r [|r' rs]]; [done|done|].
    apply cw_bind. destruct (generate_items 0 _) as [items| |]; [|done|done]. cbn [lift cw].
    apply cw_bind. eapply cw_mono; [|by apply (merge_all_commits _ None)].
    intros c' [root|] Ho; cbn; auto.
  Qed.
  Theorem insert_sorted_commits {V} (enc : V → res bytes) D prev (ks : list (arr n)) m c :
    cw c (insert_sorted enc D prev ks m) (λ c' _, c').
  Proof. unfold insert_sorted. repeat (apply cw_bind, cw_all; intros ??). apply create_tree_commits. Qed.
  Lemma remove_loop_commits fuel (q : list (arr n)) c : cw c (remove_loop fuel q) (λ c' _, c').
  Proof.
    revert q c. induction fuel as [|fuel IH]; intros [|l q] c; try done. cbn [remove_loop].
    apply cw_bind. cbn [get_node cw]. intros [nd|]; [|apply IH].
    case_match; [case_match|]; apply cw_bind; cbn [db_remove db_insert cw]; apply IH.
  Qed.

  (** From any state, whatever earlier calls left in the queue. *)
  Theorem durable (H : list bytes → arr n) {V} (enc : V → res bytes) (st : rocks_st n) :
    (∀ D prev ks vs r, out (rocks_db n) H (insert enc D prev ks vs) st = ROk r →
       let st' := fin (rocks_db n) H (insert enc D prev ks vs) st in b_drop (rocks_db n) st' = st') ∧
    (∀ D prev k v r, out (rocks_db n) H (insert_one enc D prev k v) st = ROk r →
       let st' := fin (rocks_db n) H (insert_one enc D prev k v) st in b_drop (rocks_db n) st' = st') ∧
    (∀ r, let st' := fin (rocks_db n) H (remove_prog (rocks_db n) st r) st in b_drop (rocks_db n) st' = st').
  Proof.
    assert (∀ st' : rocks_st n, pending st' = [] → b_drop (rocks_db n) st' = st') as Hd.
    { intros [m p]. cbn. by intros ->. }
    split_and!.
    - intros D prev ks vs r Ho st'. apply Hd. eapply cw_run; [|done|exact Ho].
      unfold insert. case_match; [done|]. case_match; [done|]. apply insert_sorted_commits.
    - intros D prev k v r Ho st'. apply Hd. eapply cw_run; [|done|exact Ho]. apply insert_sorted_commits.
    - intros r st'. apply Hd. destruct (remove_total (rocks_db n) H st r) as (Ho & _).
      eapply cw_run; [|done|exact Ho]. apply remove_loop_commits.
  Qed.
End Commits.
