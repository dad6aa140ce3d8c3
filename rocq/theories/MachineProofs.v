(** * Machine integers do not overflow
    The programs of Machine.v behave like those of Model.v as long as the
    numbers stored in the database stay in range. *)
From Coq Require Import Strings.Byte NArith.
From stdpp Require Import prelude countable gmap sorting strings.
From Verif Require Import Model Spec Bits Util Trie Store Logic Build Total Claims Live Need Struct Machine Counts.

Local Open Scope nat_scope.

Lemma fits_le w a b : a ≤ b → fits w b → fits w a.
Proof. unfold fits. lia. Qed.
Lemma fitsb_true w a : fits w a → fitsb w a = true.
Proof. unfold fits, fitsb. apply N.ltb_lt. Qed.
Lemma m_wrap_ok M w a : fits w a → m_wrap M w a = Ok a.
Proof. intros Ha. unfold m_wrap. by rewrite (fitsb_true w a Ha). Qed.
Lemma m_add_ok M w a b : fits w (a + b) → m_add M w a b = Ok (a + b).
Proof. apply m_wrap_ok. Qed.
Lemma m_mul_ok M w a b : fits w (a * b) → m_mul M w a b = Ok (a * b).
Proof. apply m_wrap_ok. Qed.
Lemma m_sub_ok M w a b : b ≤ a → m_sub M w a b = Ok (a - b).
Proof. intros Hb. unfold m_sub. by destruct (Nat.leb_spec b a); [|lia]. Qed.
Lemma m_shl_ok w a : fits w (a * 8) → m_shl w a 3 = a * 8.
Proof.
  intros Ha. unfold m_shl. change (2 ^ 3) with 8. unfold fits in Ha.
  rewrite N.mod_small by done. apply Nat2N.id.
Qed.

Lemma fast_log_2_le c : fast_log_2 c ≤ 7.
Proof.
  unfold fast_log_2. generalize (N.to_nat (N.shiftr (N.modulo (0x1d * N.lor (N.lor (N.lor c (N.shiftr c 1))
    (N.shiftr (N.lor c (N.shiftr c 1)) 2)) (N.shiftr (N.lor (N.lor c (N.shiftr c 1))
    (N.shiftr (N.lor c (N.shiftr c 1)) 2)) 4)) 256) 5)). intros i.
  do 8 (destruct i as [|i]; [cbn; lia|]). destruct i; cbn; lia.
Qed.

(** ** Pure functions *)
Section Pure.
  Context (M : build).
  Lemma m_split_bit_ok i a b : fits (wptr M) (8 * i + 7) → m_split_bit M i a b = Ok (split_bit_at i a b).
  Proof.
    intros Hf. unfold m_split_bit. rewrite m_shl_ok by (eapply fits_le; [|exact Hf]; lia).
    rewrite m_add_ok by (eapply fits_le; [|exact Hf]; lia). cbn [mbind res_bind].
    apply m_sub_ok. pose proof (fast_log_2_le (xor_byte a b)). lia.
  Qed.
  Lemma m_split_bit_mul_ok i a b : fits (wptr M) (8 * i + 7) → m_split_bit_mul M i a b = Ok (split_bit_at i a b).
  Proof.
    intros Hf. unfold m_split_bit_mul. rewrite m_mul_ok by (eapply fits_le; [|exact Hf]; lia).
    cbn [mbind res_bind]. rewrite m_add_ok by (eapply fits_le; [|exact Hf]; lia). cbn [mbind res_bind].
    apply m_sub_ok. pose proof (fast_log_2_le (xor_byte a b)). lia.
  Qed.
  Lemma m_first_diff_ok i a b : fits (wptr M) (8 * (i + length a)) →
    m_first_diff M i a b = Ok (first_diff i a b).
  Proof.
    revert i b. induction a as [|x a IH]; intros i [|y b] Hf; cbn; try done.
    cbn in Hf. destruct (decide (x = y)).
    - apply IH. eapply fits_le; [|exact Hf]. lia.
    - rewrite m_split_bit_ok by (eapply fits_le; [|exact Hf]; lia). done.
  Qed.
  Context {n : nat} (Hn : 0 < n) (Hbits : fits (wptr M) (8 * n)).
  Lemma m_calc_min_ok (ks : list (arr n)) bk : m_calc_min_split_index M ks bk = calc_min_split_index ks bk.
  Proof.
    unfold m_calc_min_split_index, calc_min_split_index.
    destruct (head ks) as [a|]; [|done]. destruct (last ks) as [b|]; [|done].
    destruct (if arr_ltb bk a then _ else _) as [u v].
    rewrite m_mul_ok by (eapply fits_le; [|exact Hbits]; lia). cbn.
    rewrite m_sub_ok by lia. cbn. rewrite m_first_diff_ok; [done|].
    eapply fits_le; [|exact Hbits]. destruct u as [u Hu]. cbn. lia.
  Qed.
  Lemma m_is_descendant_ok js si (bk k : arr n) : m_is_descendant M js si bk k = is_descendant js si bk k.
  Proof.
    induction js as [|j js IH]; cbn [m_is_descendant is_descendant]; [done|].
    unfold index. destruct ((bk : bytes) !! (j / 8)) as [b|] eqn:Hb; [|done]. cbn [mbind res_bind].
    destruct ((k : bytes) !! (j / 8)) as [c|]; [|done]. cbn [mbind res_bind]. destruct (decide (b = c)); [exact IH|].
    rewrite m_split_bit_ok; [cbn [mbind res_bind]; by rewrite IH|].
    apply lookup_lt_Some in Hb. assert (length (bk : bytes) = n) by (by destruct bk).
    eapply fits_le; [|exact Hbits]. lia.
  Qed.
  Lemma m_range_ok js si (bk : arr n) len ks i start found : len = i + length ks → fits (wptr M) len →
    m_descendant_range M js si bk len ks i start found = descendant_range js si bk len ks i start found.
  Proof.
    intros Hl Hf. revert i start found Hl. induction ks as [|k ks IH]; intros i start found Hl;
      cbn [m_descendant_range descendant_range]; [done|].
    rewrite m_is_descendant_ok. destruct (is_descendant js si bk k) as [d|e|]; [|done|done]. cbn.
    cbn in Hl. destruct (if d && negb found then (i, true) else (start, found)) as [st fd].
    destruct (negb d && fd); [done|]. destruct d; cbn.
    - rewrite m_sub_ok by lia. cbn. destruct ((i =? len - 1) && fd); [|apply IH; lia].
      rewrite m_add_ok by (eapply fits_le; [|exact Hf]; lia). done.
    - apply IH; lia.
  Qed.
  Lemma m_check_ok (ks : list (arr n)) si bk m : fits (wptr M) (length ks) →
    m_check_descendants M ks si bk m = check_descendants ks si bk m.
  Proof. intros Hf. unfold m_check_descendants, check_descendants. by rewrite m_range_ok. Qed.

  Lemma m_adjacent_ok j (l r : bytes) : fits (wptr M) (8 * (j + length l)) →
    m_adjacent_split M j l r = adjacent_split j l r.
  Proof using.
    clear. revert j r. induction l as [|x l IH]; intros j [|y r] Hf; cbn [m_adjacent_split adjacent_split]; try done.
    cbn in Hf. destruct (decide (x = y)).
    - destruct l; [done|]. apply IH. eapply fits_le; [|exact Hf]. cbn. lia.
    - rewrite m_split_bit_mul_ok by (eapply fits_le; [|exact Hf]; lia). done.
  Qed.
  Lemma m_items_ok i (rs : list (tref n)) : fits (wptr M) (i + length rs) →
    m_generate_items M i rs = generate_items i rs.
  Proof.
    revert i. induction rs as [|r1 rs IH]; intros i Hf; [done|]. destruct rs as [|r2 rs]; [done|].
    change (m_generate_items M i (r1 :: r2 :: rs)) with
      (i1 ← m_add M (wptr M) i 1; s ← m_adjacent_split M 0 (tkey r1) (tkey r2);
       rest ← m_generate_items M (S i) (r2 :: rs);
       Ok (match s with Some s => (s, i, i1) :: rest | None => rest end)).
    change (generate_items i (r1 :: r2 :: rs)) with
      (s ← adjacent_split 0 (tkey r1) (tkey r2);
       rest ← generate_items (S i) (r2 :: rs);
       Ok (match s with Some s => (s, i, i + 1) :: rest | None => rest end)).
    rewrite m_add_ok by (eapply fits_le; [|exact Hf]; cbn; lia). cbn [mbind res_bind].
    rewrite m_adjacent_ok.
    - rewrite IH; [done|]. eapply fits_le; [|exact Hf]. cbn. lia.
    - eapply fits_le; [|exact Hbits]. destruct (tkey r1) as [u Hu]. cbn. lia.
  Qed.
End Pure.

(** ** Programs with the same execution *)
Section Same.
  Context {n : nat} (B : backend n) (H : list bytes → arr n).

  (** [same c Q p' p st]: executed from [st], [p'] and [p] do the same operations
      one by one; if they return, [Q] holds of the result, the state, and [c]
      plus the number of nodes written. *)
  Fixpoint same {A} (c : nat) (Q : A → b_st B → nat → Prop) (p' p : prog n A) (st : b_st B) : Prop :=
    match p, p' with
    | Ret a, Ret a' => a' = a ∧ Q a st c
    | Throw e, Throw e' => e' = e
    | Panic, Panic => True
    | Fuel, Fuel => True
    | Hash cs k, Hash cs' k' => cs' = cs ∧ same c Q (k' (H cs)) (k (H cs)) st
    | Get l k, Get l' k' => l' = l ∧ same c Q (k' (b_vis B st !! l)) (k (b_vis B st !! l)) st
    | Put l nd k, Put l' nd' k' => l' = l ∧ nd' = nd ∧ same (S c) Q k' k (b_put B st l nd)
    | Del l k, Del l' k' => l' = l ∧ same c Q k' k (b_del B st l)
    | Flush k, Flush k' => same c Q k' k (b_flush B st)
    | _, _ => False
    end.

  Lemma same_mono {A} c (Q Q' : A → b_st B → nat → Prop) p' p st :
    (∀ a s c, Q a s c → Q' a s c) → same c Q p' p st → same c Q' p' p st.
  Proof using.
    intros HQ. revert c p' st. induction p as [a|e| | |cs k IH|l k IH|l nd k IH|l k IH|k IH]; intros c p' st;
      destruct p'; cbn; try done; naive_solver.
  Qed.
  Lemma same_refl {A} c (p : prog n A) st : same c (λ _ _ _, True) p p st.
  Proof using.
    revert c st. induction p as [a|e| | |cs k IH|l k IH|l nd k IH|l k IH|k IH]; intros c st; cbn; auto.
  Qed.
  Lemma same_run {A} c Q (p' p : prog n A) st : same c Q p' p st →
    run B H p' st = run B H p st ∧ states B H p' st = states B H p st ∧
    fetches B H p' st = fetches B H p st ∧ ∀ i, run_fault B H i p' st = run_fault B H i p st.
  Proof using.
    revert c p' st. induction p as [a|e| | |cs k IH|l k IH|l nd k IH|l k IH|k IH]; intros c p' st;
      destruct p'; try done; cbn [same run states fetches run_fault].
    - by intros [-> _].
    - by intros ->.
    - intros [-> Hs]. destruct (IH _ _ _ _ Hs) as (I1 & I2 & I3 & I4). rewrite I1, I2, I3. done.
    - intros [-> Hs]. destruct (IH _ _ _ _ Hs) as (I1 & I2 & I3 & I4). rewrite I1, I2, I3.
      split_and!; try done. intros [|i]; [done|apply I4].
    - intros (-> & -> & Hs). destruct (IH _ _ _ Hs) as (I1 & I2 & I3 & I4). rewrite I1, I2, I3.
      split_and!; try done. intros [|i]; [done|apply I4].
    - intros [-> Hs]. destruct (IH _ _ _ Hs) as (I1 & I2 & I3 & I4). rewrite I1, I2, I3.
      split_and!; try done. intros [|i]; [done|apply I4].
    - intros Hs. destruct (IH _ _ _ Hs) as (I1 & I2 & I3 & I4). rewrite I1, I2, I3.
      split_and!; try done. intros [|i]; [done|apply I4].
  Qed.

  (** Agreement provided the states of [p] satisfy [P] and it writes at most [W]
      nodes, [c] having been written before. *)
  Context (P : b_st B → Prop) (W : nat).
  Definition agree {A} (c : nat) (Q : A → b_st B → nat → Prop) (p' p : prog n A) (st : b_st B) : Prop :=
    Forall P (states B H p st) → c + writes B H p st ≤ W → same c Q p' p st.

  Lemma states_head {A} (p : prog n A) st : Forall P (states B H p st) → P st.
  Proof using. destruct p; cbn [states]; apply Forall_inv. Qed.
  Lemma agree_mono {A} c (Q Q' : A → b_st B → nat → Prop) p' p st :
    (∀ a s c, Q a s c → Q' a s c) → agree c Q p' p st → agree c Q' p' p st.
  Proof using. intros HQ Ha H1 H2. eapply same_mono; [exact HQ|by apply Ha]. Qed.
  Lemma agree_bind {A C} c (Q : A → b_st B → nat → Prop) (Q' : C → b_st B → nat → Prop)
      (p' p : prog n A) (f' f : A → prog n C) st :
    agree c Q p' p st → (∀ a st' c', Q a st' c' → agree c' Q' (f' a) (f a) st') →
    agree c Q' (p' ≫= f') (p ≫= f) st.
  Proof using.
    intros Ha Hf. change (agree c Q' (pbind f' p') (pbind f p) st). intros HP HW.
    assert (Hs : same c Q p' p st ).
    { apply Ha; clear Ha Hf.
      - clear HW. revert st HP. induction p as [a|e| | |cs k IH|l k IH|l nd k IH|l k IH|k IH]; intros st HP;
          cbn [pbind states] in *; try done;
          try (apply Forall_singleton; by eapply states_head);
          (apply Forall_cons in HP as [H1 HP]; constructor; [done|by apply IH]).
      - clear HP. revert c st HW. induction p as [a|e| | |cs k IH|l k IH|l nd k IH|l k IH|k IH]; intros c st HW;
          cbn [pbind writes] in *; try lia; try (by apply IH).
        specialize (IH (S c) (b_put B st l nd)). lia. }
    clear Ha. revert c p' st HP HW Hs.
    induction p as [a|e| | |cs k IH|l k IH|l nd k IH|l k IH|k IH]; intros c p' st HP HW Hs; destruct p'; try done;
      cbn [pbind same states writes] in *.
    - destruct Hs as [-> Hq]. by apply Hf.
    - destruct Hs as [-> Hs]. split; [done|]. apply Forall_cons in HP as [_ HP]. by apply IH.
    - destruct Hs as [-> Hs]. split; [done|]. apply Forall_cons in HP as [_ HP]. by apply IH.
    - destruct Hs as (-> & -> & Hs). split_and!; [done|done|]. apply Forall_cons in HP as [_ HP].
      apply IH; [done|lia|done].
    - destruct Hs as [-> Hs]. split; [done|]. apply Forall_cons in HP as [_ HP]. by apply IH.
    - apply Forall_cons in HP as [_ HP]. by apply IH.
  Qed.
  Lemma agree_ret {A} c (Q : A → b_st B → nat → Prop) a st : Q a st c → agree c Q (Ret a) (Ret a) st.
  Proof using. by intros ? ? ?. Qed.
  Lemma agree_throw {A} c (Q : A → b_st B → nat → Prop) e st : agree c Q (Throw e) (Throw e) st.
  Proof using. done. Qed.
  Lemma agree_lift {A} c (Q : A → b_st B → nat → Prop) (r : res A) st :
    (∀ a, r = Ok a → Q a st c) → agree c Q (lift r) (lift r) st.
  Proof using. destruct r; cbn; try done. intros Hq. by apply agree_ret, Hq. Qed.
  Lemma agree_hash c cs st : agree c (λ _ s c', s = st ∧ c' = c) (hash cs) (hash cs) st.
  Proof using. intros _ _. cbn. done. Qed.
  Lemma agree_get c l st :
    agree c (λ o s c', s = st ∧ c' = c ∧ o = b_vis B st !! l ∧ P st) (get_node l) (get_node l) st.
  Proof using. intros HP _. cbn. split_and!; try done. by apply states_head in HP. Qed.
  Lemma agree_put c l nd st :
    agree c (λ _ s c', s = b_put B st l nd ∧ c' = S c) (db_insert l nd) (db_insert l nd) st.
  Proof using. intros _ _. cbn. done. Qed.
  Lemma agree_flush c st : agree c (λ _ s c', c' = c) batch_write batch_write st.
  Proof using. intros _ _. cbn. done. Qed.
  (** The number of nodes written so far is within the bound. *)
  Lemma agree_bound {A} c (Q : A → b_st B → nat → Prop) p' p st :
    (c ≤ W → agree c Q p' p st) → agree c Q p' p st.
  Proof using. intros Ha HP HW. apply Ha; [lia|done|done]. Qed.
End Same.

(** ** Numbers in range
    A node fits if its reference count can still be raised by one and its number
    of keys fits.  [in_range]: all nodes of the database, visible or queued. *)
Definition ok_node (M : build) {n} (nd : node n) : Prop :=
  fits (wref M) (refs nd + 1) ∧
  match var nd with VBranch c _ _ _ _ => fits (wref M) c | _ => True end.
Definition in_range (M : build) {n} (B : backend n) {HB : BackendOk B} (st : b_st B) : Prop :=
  ∀ l nd, b_vis B st !! l = Some nd ∨ bview st !! l = Some nd → ok_node M nd.

(** ** Programs *)
Section Prog.
  Context (M : build) {n : nat} (Hn : 0 < n) (B : backend n) {HB : BackendOk B} (H : list bytes → arr n).
  Context {V : Type} (enc : V → res bytes) (dec : bytes → res V).
  Context (D : nat) (W : nat).
  Context (Hbits : fits (wptr M) (8 * n)) (HD : fits (wptr M) (D + 1)).
  Context (HWc : fits (wcnt M) W) (HWp : fits (wptr M) W).
  Implicit Types (st : b_st B) (k l : arr n) (ks : list (arr n)) (c : nat).
  Notation ag := (agree B H (in_range M B) W).

  Lemma in_range_get st l nd : in_range M B st → b_vis B st !! l = Some nd → ok_node M nd.
  Proof. intros Hi Hl. apply (Hi l). by left. Qed.
  Lemma in_range_put st l nd : in_range M B (b_put B st l nd) → ok_node M nd.
  Proof. intros Hi. apply (Hi l). right. rewrite bview_put. by rewrite lookup_insert. Qed.
  Lemma m_bump_ok (o : option (node n)) : (∀ nd, o = Some nd → ok_node M nd) →
    m_bump M o = Ok (match o with Some nd => refs nd + 1 | None => 1 end).
  Proof. intros Ho. destruct o as [nd|]; [|done]. cbn. apply m_add_ok. by destruct (Ho nd eq_refl). Qed.

  Lemma insert_leaves_agree c values ks st :
    ag c (λ ls _ c', length ls = length ks ∧ c' = c + 2 * length ks) (m_insert_leaves M enc values ks) (insert_leaves enc values ks) st.
  Proof.
    revert c st. induction ks as [|k ks IH]; intros c st; cbn [m_insert_leaves insert_leaves].
    { apply agree_ret. cbn. lia. }
    eapply (agree_bind _ _ _ _ _ (λ _ _ c', c' = c + 2)).
    - unfold m_insert_leaves_one, insert_leaves_one. destruct (values !! k) as [v|]; [|done].
      eapply (agree_bind _ _ _ _ _ (λ _ _ c', c' = c)); [by apply agree_lift|]. intros e st' c' ->.
      eapply agree_bind; [apply agree_hash|]. intros d ? ? [-> ->].
      eapply agree_bind; [apply agree_hash|]. intros l ? ? [-> ->].
      eapply agree_bind; [apply agree_get|]. intros od ? ? (-> & -> & Hod & Hi).
      rewrite m_bump_ok by (intros nd ->; eapply in_range_get; [done|by symmetry]). cbn [lift].
      change (mbind (M := prog n) ?f (Ret ?x)) with (f x). cbv beta.
      eapply agree_bind; [apply agree_get|]. intros ol ? ? (-> & -> & Hol & _).
      rewrite m_bump_ok by (intros nd ->; eapply in_range_get; [done|by symmetry]). cbn [lift].
      change (mbind (M := prog n) ?f (Ret ?x)) with (f x). cbv beta.
      eapply agree_bind; [apply agree_put|]. intros [] ? ? [-> ->].
      eapply agree_bind; [apply agree_put|]. intros [] ? ? [-> ->].
      apply agree_ret. lia.
    - intros l st' c' ->. eapply agree_bind; [apply IH|]. intros ls st'' c' [Hl ->].
      apply agree_ret. cbn. lia.
  Qed.
  Lemma insert_leaf_agree c l st :
    ag c (λ _ _ c', c' = S c) (m_insert_leaf M l) (insert_leaf l) st.
  Proof.
    unfold m_insert_leaf, insert_leaf. eapply agree_bind; [apply agree_get|]. intros o ? ? (-> & -> & Ho & Hi).
    destruct o as [nd|]; [|done]. symmetry in Ho. destruct (in_range_get _ _ _ Hi Ho) as [Hr _].
    rewrite m_add_ok by done. cbn [lift]. change (mbind (M := prog n) ?f (Ret ?x)) with (f x). cbv beta.
    eapply agree_mono; [|apply agree_put]. by intros ? ? ? [_ ->].
  Qed.

  (** A cell of the queue: its node was read, its keys are part of the request. *)
  Definition cell_ok (ce : cell (n := n)) : Prop :=
    ok_node M (cnode ce) ∧ fits (wptr M) (length (ckeys ce)).
  Lemma split_nodes_agree c d b nl st : d ≤ D → fits (wptr M) (length nl) →
    ag c (λ r _ c', match r with
                    | inl t => tcount t = 1 ∧ c' = S c
                    | inr ce => cell_ok ce ∧ c' = c
                    end) (m_split_nodes M d b nl) (split_nodes d b nl) st.
  Proof.
    intros Hd Hl. unfold m_split_nodes, split_nodes.
    eapply agree_bind; [apply agree_get|]. intros o ? ? (-> & -> & Ho & Hi).
    destruct o as [nd|]; [|done]. symmetry in Ho. pose proof (in_range_get _ _ _ Hi Ho) as Hok.
    destruct nl as [|k nl].
    - destruct Hok as [Hr _]. rewrite m_add_ok by done. cbn [lift].
      change (mbind (M := prog n) ?f (Ret ?x)) with (f x). cbv beta.
      destruct (var nd) as [cnt z on si bk|lk ld|e]; [| |done];
        (eapply agree_bind; [apply agree_put|]; intros [] ? ? [-> ->]; by apply agree_ret).
    - rewrite m_add_ok by (eapply fits_le; [|exact HD]; lia). cbn [lift].
      change (mbind (M := prog n) ?f (Ret ?x)) with (f x). cbv beta. by apply agree_ret.
  Qed.
  Lemma traverse_agree c fuel km acc q st : Forall cell_ok q → Forall (λ t, tcount t = 1) acc → length acc ≤ c →
    ag c (λ acc' _ c', Forall (λ t, tcount t = 1) acc' ∧ length acc' + c ≤ length acc + c')
      (m_traverse_tree M D fuel km acc q) (traverse_tree D fuel km acc q) st.
  Proof.
    revert c acc q st. induction fuel as [|fuel IH]; intros c acc q st Hq Hacc Hlen.
    { destruct q; [|done]. apply agree_ret. split; [done|lia]. }
    destruct q as [|ce q]; [by apply agree_ret|].
    apply Forall_cons in Hq as [[Hok Hks] Hq]. cbn [m_traverse_tree traverse_tree].
    destruct (Nat.ltb_spec D (cdepth ce)) as [|Hd]; [done|].
    destruct (var (cnode ce)) as [cnt z on si bk|lk ld|e] eqn:Hv; [| |done].
    - rewrite m_calc_min_ok by done.
      eapply (agree_bind _ _ _ _ _ (λ _ _ c', c' = c)); [by apply agree_lift|]. intros m ? ? ->.
      eapply (agree_bind _ _ _ _ _ (λ ds _ c', c' = c ∧ length ds ≤ length (ckeys ce))).
      { destruct (m <? si); [|by apply agree_ret]. rewrite m_check_ok by done.
        apply agree_lift. intros ds Hds. split; [done|]. by eapply check_descendants_length. }
      intros ds ? ? [-> Hds]. destruct (_ && _).
      + destruct Hok as [Hr _]. rewrite m_add_ok by done. cbn [lift].
        change (mbind (M := prog n) ?f (Ret ?x)) with (f x). cbv beta.
        eapply agree_bind; [apply agree_put|]. intros [] ? ? [-> ->].
        eapply agree_mono; [|apply IH; [done| |rewrite app_length; cbn; lia]].
        * intros a s c'. rewrite app_length. cbn. intros [? ?]. split; [done|lia].
        * apply Forall_app. split; [done|]. by apply Forall_singleton.
      + eapply (agree_bind _ _ _ _ _ (λ zo _ c', c' = c ∧ length zo.1 ≤ length (ckeys ce) ∧ length zo.2 ≤ length (ckeys ce))).
        { apply agree_lift. intros zo Hzo. split; [done|].
          destruct (split_pairs_length _ _ _ Hzo) as [?|[_ ->]]; cbn; lia. }
        intros zo ? ? (-> & Hz0 & Hz1).
        eapply agree_bind; [apply split_nodes_agree; [done|by eapply fits_le]|].
        intros r1 st1 c1 Hr1.
        assert (∃ acc1 q1, push_split r1 acc q = (acc1, q1) ∧ Forall cell_ok q1 ∧ Forall (λ t, tcount t = 1) acc1 ∧
          length acc1 + c = length acc + c1) as (acc1 & q1 & -> & Hq1 & Hacc1 & Hl1).
        { destruct r1 as [t|cc]; cbn; eexists _, _; (split; [done|]).
          - destruct Hr1 as [Ht ->]. split_and!; [done| |rewrite app_length; cbn; lia].
            apply Forall_app. split; [done|]. by apply Forall_singleton.
          - destruct Hr1 as [Hcc ->]. split_and!; [by constructor|done|lia]. }
        eapply agree_bind; [apply split_nodes_agree; [done|by eapply fits_le]|].
        intros r0 st0 c0 Hr0.
        assert (∃ acc0 q0, push_split r0 acc1 q1 = (acc0, q0) ∧ Forall cell_ok q0 ∧ Forall (λ t, tcount t = 1) acc0 ∧
          length acc0 + c1 = length acc1 + c0) as (acc0 & q0 & -> & Hq0 & Hacc0 & Hl0).
        { destruct r0 as [t|cc]; cbn; eexists _, _; (split; [done|]).
          - destruct Hr0 as [Ht ->]. split_and!; [done| |rewrite app_length; cbn; lia].
            apply Forall_app. split; [done|]. by apply Forall_singleton.
          - destruct Hr0 as [Hcc ->]. split_and!; [by constructor|done|lia]. }
        eapply agree_mono; [|apply IH; [done|done|lia]].
        intros a s c'. intros [? ?]. split; [done|lia].
    - destruct (km !! lk) as [l|].
      + destruct (decide (l = cloc ce)); [|by apply IH].
        eapply agree_bind; [apply insert_leaf_agree|]. intros [] ? ? ->.
        eapply agree_mono; [|apply IH; [done|done|lia]]. intros a s c' [? ?]. split; [done|lia].
      + eapply agree_bind; [apply insert_leaf_agree|]. intros [] ? ? ->.
        eapply agree_mono; [|apply IH; [done| |rewrite app_length; cbn; lia]].
        * intros a s c'. rewrite app_length. cbn. intros [? ?]. split; [done|lia].
        * apply Forall_app. split; [done|]. by apply Forall_singleton.
  Qed.

  (** ** Merging *)
  Lemma m_lookahead_chain rs p w c fuel : 0 < c → c ≤ w → w ≤ c + fuel → fits (wptr M) (p + w) →
    chain rs (S p) w c → m_lookahead M (n := n) fuel rs p c = Ok (p + w, w).
  Proof.
    intros Hc Hcw Hf Hp Hch. revert fuel Hf.
    assert (Hu : ∀ c', c' ≤ w → m_usize M c' = Ok c' ∧ m_add M (wptr M) p c' = Ok (p + c')).
    { intros c' Hc'. split; [|apply m_add_ok; eapply fits_le; [|exact Hp]; lia].
      unfold m_usize. rewrite fitsb_true; [done|]. eapply fits_le; [|exact Hp]. lia. }
    induction Hch as [y Hy Hw|c y Hy Hlt Hc0 Hle Hch IH]; intros fuel Hf.
    - replace (S p + w - 1) with (p + w) in Hy by lia. destruct (Hu w ltac:(lia)) as [Hu1 Hu2].
      destruct fuel; cbn [m_lookahead]; rewrite Hu1; cbn [mbind res_bind]; rewrite Hu2; cbn [mbind res_bind];
        unfold index; rewrite Hy; cbn [mbind res_bind]; rewrite Hw;
        (destruct (Nat.ltb_spec w w); [lia|done]).
    - replace (S p + c - 1) with (p + c) in Hy by lia. destruct (Hu c ltac:(lia)) as [Hu1 Hu2].
      destruct fuel as [|fuel]; cbn [m_lookahead]; rewrite Hu1; cbn [mbind res_bind]; rewrite Hu2; cbn [mbind res_bind];
        unfold index; rewrite Hy; cbn [mbind res_bind];
        (destruct (Nat.ltb_spec c (tcount y)); [|lia]); [lia|].
      apply IH; lia.
  Qed.
  Lemma merge_one_agree N c rs it L st : mergeable N rs (it :: L) → length rs ≤ W →
    ag c (λ r _ _, mergeable N r.1 L ∧ length r.1 = length rs) (m_merge_one M rs it) (merge_one rs it) st.
  Proof.
    intros Hm Hlen. destruct it as [[s p] q].
    destruct (mergeable_one _ _ _ _ _ _ Hm) as (rp & rn & [la w] & rl & -> & Hrp & Hrn & Hrl & Hla & Hlt & Hsum & _ & Hif & Hnew).
    cbn [fst snd] in *. unfold m_merge_one, merge_one.
    assert (Hl1 : (if 1 <? tcount rn then lookahead (length rs) rs p (tcount rn) else Ok (S p, tcount rn)) = Ok (la, w)).
    { destruct (Nat.ltb_spec 1 (tcount rn)); [|by rewrite Hif]. destruct Hif as (Hch & H1 & H2). rewrite Hla.
      apply lookahead_chain; [lia|lia|lia|done]. }
    assert (Hl2 : (if 1 <? tcount rn then m_lookahead M (length rs) rs p (tcount rn) else Ok (S p, tcount rn)) = Ok (la, w)).
    { destruct (Nat.ltb_spec 1 (tcount rn)); [|by rewrite Hif]. destruct Hif as (Hch & H1 & H2). rewrite Hla.
      apply m_lookahead_chain; [lia|lia|lia| |done]. eapply fits_le; [|exact HWp]. lia. }
    assert (Hix : index rs p = Ok rp ∧ index rs (S p) = Ok rn ∧ index rs la = Ok rl).
    { unfold index. by rewrite Hrp, Hrn, Hrl. }
    destruct Hix as (Hi1 & Hi2 & Hi3). clear Hrp Hrn Hrl.
    rewrite Hi1. cbn [lift mbind prog_bind pbind]. rewrite Hi2. cbn [lift mbind prog_bind pbind].
    rewrite Hl1, Hl2. cbn [lift mbind prog_bind pbind fst snd]. rewrite Hi3. cbn [lift mbind prog_bind pbind].
    intros HP HW. cbn [hash mbind prog_bind pbind db_insert mret prog_ret states writes] in HP, HW.
    apply Forall_cons in HP as [_ HP]. apply Forall_cons in HP as [_ HP]. apply Forall_inv in HP.
    apply in_range_put in HP as [_ HP]. cbn in HP.
    rewrite (m_add_ok M (wref M) (tnodes rp) (tnodes rl) HP).
    rewrite (m_add_ok M (wcnt M) w (tcount rp)) by (eapply fits_le; [|exact HWc]; lia).
    cbn [lift hash mbind prog_bind pbind db_insert mret prog_ret same fst snd]. split_and!; try done.
    - by apply Hnew.
    - by rewrite !insert_length.
  Qed.
  Lemma merge_level_agree N c rs root lv L st : mergeable N rs (lv ++ L) → length rs ≤ W →
    ag c (λ r _ _, mergeable N r.1 L ∧ length r.1 = length rs) (m_merge_level M rs root lv) (merge_level rs root lv) st.
  Proof.
    revert c rs root st. induction lv as [|it lv IH]; intros c rs root st Hm Hlen; cbn [m_merge_level merge_level].
    { by apply agree_ret. }
    eapply agree_bind; [by eapply merge_one_agree|]. intros r st' c' [Hr Hl].
    eapply agree_mono; [|apply IH; [done|lia]]. cbn. intros ? _ _ [? ?]. split; [done|lia].
  Qed.
  Lemma merge_all_agree N c rs root lvs st : mergeable N rs (mjoin lvs) → length rs ≤ W →
    ag c (λ _ _ _, True) (m_merge_all M rs root lvs) (merge_all rs root lvs) st.
  Proof.
    revert c rs root st. induction lvs as [|lv lvs IH]; intros c rs root st Hm Hlen; cbn [m_merge_all merge_all].
    { by apply agree_ret. }
    eapply (agree_bind _ _ _ _ _ (λ r _ _, mergeable N r.1 (mjoin lvs) ∧ length r.1 = length rs)).
    - unfold m_merge_nodes, merge_nodes. eapply agree_bind; [by eapply merge_level_agree|].
      intros r st' c' Hr. eapply agree_bind; [apply agree_flush|]. intros [] ? ? _. by apply agree_ret.
    - intros r st' c' [Hr Hl]. apply IH; [done|lia].
  Qed.
  Lemma create_tree_agree c rs st : Forall (λ t, tcount t = 1) rs → length rs ≤ W →
    ag c (λ _ _ _, True) (m_create_tree M rs) (create_tree rs) st.
  Proof.
    intros H1 Hlen. unfold m_create_tree, create_tree.
    destruct rs as [|r1 rs]; [done|]. destruct rs as [|r2 rs].
    { eapply agree_bind; [apply agree_flush|]. intros [] ? ? _. by apply agree_ret. }
    assert (Hp : sort_refs (r1 :: r2 :: rs) ≡ₚ r1 :: r2 :: rs) by apply merge_sort_Permutation.
    rewrite <- Hp in H1. rewrite <- (Permutation_length Hp) in Hlen. revert H1 Hlen.
    generalize (sort_refs (r1 :: r2 :: rs)). clear Hp. intros rs' H1 Hlen.
    rewrite m_items_ok; [|done|done|eapply fits_le; [|exact HWp]; lia].
    eapply (agree_bind _ _ _ _ _ (λ items _ _, generate_items 0 rs' = Ok items)); [by apply agree_lift|].
    intros items st' c' Hi. eapply agree_bind; [eapply merge_all_agree; [by apply mergeable_start|done]|].
    intros [root|] ? ? _; [|done]. by apply agree_ret.
  Qed.

  (** ** The methods *)
  Lemma insert_sorted_agree prev ks vm st : fits (wptr M) (length ks) →
    ag 0 (λ _ _ _, True) (m_insert_sorted M enc D prev ks vm) (insert_sorted enc D prev ks vm) st.
  Proof.
    intros Hks. unfold m_insert_sorted, insert_sorted.
    eapply agree_bind; [apply insert_leaves_agree|]. intros ls st1 c1 [Hl ->].
    eapply (agree_bind _ _ _ _ _ (λ ps _ c', Forall (λ t, tcount t = 1) ps ∧ length ps + 2 * length ks ≤ c')).
    - destruct prev as [r|]; [|apply agree_ret; split; [constructor|cbn; lia]].
      unfold m_generate_treerefs, generate_treerefs.
      eapply agree_bind; [apply agree_get|]. intros o ? ? (-> & -> & Ho & Hi).
      destruct o as [nd|]; [|done]. eapply agree_mono; [|apply traverse_agree].
      + cbn. intros ps _ c' [? ?]. split; [done|lia].
      + apply Forall_singleton. split; [|done]. by eapply in_range_get.
      + constructor.
      + cbn. lia.
    - intros ps st2 c2 [Hps Hc2]. apply agree_bound. intros HW. apply create_tree_agree.
      + apply Forall_app. split; [|done]. clear. revert ls.
        induction ks as [|k ks IH]; intros [|l ls]; cbn; try constructor; auto.
      + rewrite app_length, zip_with_length. lia.
  Qed.
  Lemma insert_agree prev ks vs st : fits (wptr M) (length ks) →
    ag 0 (λ _ _ _, True) (m_insert M enc D prev ks vs) (insert enc D prev ks vs) st.
  Proof.
    intros Hks. unfold m_insert, insert. destruct (negb _); [done|]. destruct (_ || _); [done|].
    apply insert_sorted_agree. unfold sort_keys. by rewrite merge_sort_Permutation.
  Qed.
  Lemma insert_one_agree prev k v st : fits (wptr M) 1 →
    ag 0 (λ _ _ _, True) (m_insert_one M enc D prev k v) (insert_one enc D prev k v) st.
  Proof. intros H1. by apply insert_sorted_agree. Qed.

End Prog.

(** Reads; nothing is asked of the states. *)
Section Reads.
  Context (M : build) {n : nat} (Hn : 0 < n) (B : backend n) (H : list bytes → arr n).
  Context {V : Type} (enc : V → res bytes) (dec : bytes → res V).
  Context (D : nat) (P : b_st B → Prop) (W : nat).
  Context (Hbits : fits (wptr M) (8 * n)) (HD : fits (wptr M) (D + 1)).
  Implicit Types (st : b_st B) (k l : arr n) (ks : list (arr n)) (c : nat).
  Notation ag := (agree B H P W).

  Lemma push_cell_agree c q d l ks st : d ≤ D →
    Forall (λ ce, fits (wptr M) (length (ckeys ce))) q → fits (wptr M) (length ks) →
    ag c (λ q' _ c', c' = c ∧ Forall (λ ce, fits (wptr M) (length (ckeys ce))) q')
      (m_push_cell_if_node M q d l ks) (push_cell_if_node q d l ks) st.
  Proof.
    intros Hd Hq Hks. unfold m_push_cell_if_node, push_cell_if_node.
    eapply agree_bind; [apply agree_get|]. intros o ? ? (-> & -> & _ & _).
    destruct o as [nd|]; [|by apply agree_ret]. destruct ks as [|k ks]; [by apply agree_ret|].
    rewrite m_add_ok by (eapply fits_le; [|exact HD]; lia). cbn [lift].
    change (mbind (M := prog n) ?f (Ret ?x)) with (f x). cbv beta. apply agree_ret. split; [done|]. by constructor.
  Qed.
  Lemma get_loop_agree c fuel keys lm q st : Forall (λ ce, fits (wptr M) (length (ckeys ce))) q →
    ag c (λ _ _ _, True) (m_get_loop M dec D fuel keys lm q) (get_loop dec D fuel keys lm q) st.
  Proof.
    revert c lm q st. induction fuel as [|fuel IH]; intros c lm q st Hq.
    { destruct q; [|done]. by apply agree_ret. }
    destruct q as [|ce q]; [by apply agree_ret|].
    apply Forall_cons in Hq as [Hks Hq]. cbn [m_get_loop get_loop].
    destruct (Nat.ltb_spec D (cdepth ce)) as [|Hd]; [done|].
    destruct (var (cnode ce)) as [cnt z on si bk|lk ld|e] eqn:Hv; [| |done].
    - rewrite m_calc_min_ok by done.
      eapply (agree_bind _ _ _ _ _ (λ _ _ c', c' = c)); [by apply agree_lift|]. intros m ? ? ->.
      rewrite m_check_ok by done.
      eapply (agree_bind _ _ _ _ _ (λ ds _ c', c' = c ∧ length ds ≤ length (ckeys ce))).
      { apply agree_lift. intros ds Hds. split; [done|]. by eapply check_descendants_length. }
      intros [|k0 ds] ? ? [-> Hds]; [by apply IH|].
      eapply (agree_bind _ _ _ _ _ (λ zo _ c', c' = c ∧ length zo.1 ≤ length (ckeys ce) ∧ length zo.2 ≤ length (ckeys ce))).
      { apply agree_lift. intros zo Hzo. split; [done|].
        destruct (split_pairs_length _ _ _ Hzo) as [?|[? _]]; [|done]. cbn [length] in *. lia. }
      intros zo ? ? (-> & Hz0 & Hz1).
      eapply agree_bind; [apply push_cell_agree; [done|done|by eapply fits_le]|]. intros q1 ? ? [-> Hq1].
      eapply agree_bind; [apply push_cell_agree; [done|done|by eapply fits_le]|]. intros q0 ? ? [-> Hq0].
      by apply IH.
    - eapply agree_bind; [apply agree_get|]. intros [nd|] ? ? (-> & -> & _ & _); [|done].
      destruct (var nd) as [| |e]; [done|done|].
      eapply (agree_bind _ _ _ _ _ (λ _ _ c', c' = c)); [by apply agree_lift|]. intros v ? ? ->.
      destruct (binary_search keys lk) as [i|]; [|by apply IH].
      eapply (agree_bind _ _ _ _ _ (λ _ _ c', c' = c)); [by apply agree_lift|]. intros k ? ? ->.
      by apply IH.
  Qed.
  Lemma get_agree root ks st : fits (wptr M) (length ks) →
    ag 0 (λ _ _ _, True) (m_get M dec D root ks) (get dec D root ks) st.
  Proof.
    intros Hks. unfold m_get, get. destruct ks as [|k ks]; [by apply agree_ret|].
    eapply agree_bind; [apply agree_get|]. intros [nd|] ? ? (-> & -> & _ & _); [|by apply agree_ret].
    apply get_loop_agree. apply Forall_singleton. cbn [ckeys]. unfold sort_keys. by rewrite merge_sort_Permutation.
  Qed.
  Lemma get_one_loop_agree fuel l k d fl c st : fits (wptr M) 1 →
    ag c (λ _ _ _, True) (m_get_one_loop M dec D fuel k d fl l) (get_one_loop dec D fuel k d fl l) st.
  Proof.
    intros H1. revert d fl l c st.
    induction fuel as [|fuel IH]; intros d fl l c st; cbn [m_get_one_loop get_one_loop]; [done|].
    destruct (Nat.ltb_spec D d) as [|Hd]; [done|].
    rewrite m_add_ok by (eapply fits_le; [|exact HD]; lia). cbn [lift].
    change (mbind (M := prog n) ?f (Ret ?x)) with (f x). cbv beta.
    eapply agree_bind; [apply agree_get|]. intros [nd|] ? ? (-> & -> & _ & _); [|by apply agree_ret].
    destruct (var nd) as [cnt z on si bk|lk ld|e].
    - destruct fl; [done|]. rewrite m_calc_min_ok by done.
      eapply (agree_bind _ _ _ _ _ (λ _ _ _, True)); [by apply agree_lift|]. intros m ? ? _.
      rewrite m_check_ok by done.
      eapply (agree_bind _ _ _ _ _ (λ _ _ _, True)); [by apply agree_lift|]. intros [|k0 ds] ? ? _; [by apply agree_ret|].
      eapply (agree_bind _ _ _ _ _ (λ _ _ _, True)); [by apply agree_lift|]. intros b ? ? _. apply IH.
    - destruct fl; [done|]. destruct (decide (lk = k)); [apply IH|by apply agree_ret].
    - destruct (negb fl); [done|].
      eapply (agree_bind _ _ _ _ _ (λ _ _ _, True)); [by apply agree_lift|]. intros v ? ? _. by apply agree_ret.
  Qed.
  Lemma gen_proof_loop_agree fuel root k d fl acc c st : fits (wptr M) 1 →
    ag c (λ _ _ _, True) (m_gen_proof_loop M D fuel k d fl acc root) (gen_proof_loop D fuel k d fl acc root) st.
  Proof.
    intros H1. revert d fl acc root c st.
    induction fuel as [|fuel IH]; intros d fl acc l c st; cbn [m_gen_proof_loop gen_proof_loop]; [done|].
    destruct (Nat.ltb_spec D d) as [|Hd]; [done|].
    rewrite m_add_ok by (eapply fits_le; [|exact HD]; lia). cbn [lift].
    change (mbind (M := prog n) ?f (Ret ?x)) with (f x). cbv beta.
    eapply agree_bind; [apply agree_get|]. intros [nd|] ? ? (-> & -> & _ & _); [|done].
    destruct (var nd) as [cnt z on si bk|lk ld|e].
    - destruct fl; [done|]. rewrite m_calc_min_ok by done.
      eapply (agree_bind _ _ _ _ _ (λ _ _ _, True)); [by apply agree_lift|]. intros m ? ? _.
      rewrite m_check_ok by done.
      eapply (agree_bind _ _ _ _ _ (λ _ _ _, True)); [by apply agree_lift|]. intros [|k0 ds] ? ? _; [done|].
      eapply (agree_bind _ _ _ _ _ (λ _ _ _, True)); [by apply agree_lift|]. intros [] ? ? _; apply IH.
    - destruct fl; [done|]. destruct (decide (lk = k)); [|done].
      eapply agree_bind; [apply agree_hash|]. intros h ? ? [-> ->]. apply IH.
    - destruct (negb fl); [done|].
      eapply agree_bind; [apply agree_hash|]. intros h ? ? [-> ->]. by apply agree_ret.
  Qed.
End Reads.

(** ** Whole calls *)
(** The arguments of a call fit in the machine's numbers; for a proof, so does the
    room it reserves. *)
Section Top.
  Context (M : build) {n : nat} (Hn : 0 < n) (B : backend n) {HB : BackendOk B} (H : list bytes → arr n).
  Context {V : Type} (enc : V → res bytes) (dec : bytes → res V).
  Context (Hbits : fits (wptr M) (8 * n)).
  Implicit Types (st : b_st B) (k r : arr n) (ks : list (arr n)) (c : call n V) (lg : list (list bytes)).
  Notation alike := (alike B H).

  Lemma fits_one : fits (wptr M) 1.
  Proof. eapply fits_le; [|exact Hbits]. lia. Qed.
  Lemma agree_alike {A} P W Q (p' p : prog n A) st : agree B H P W 0 Q p' p st →
    Forall P (states B H p st) → writes B H p st ≤ W → alike p' p st.
  Proof. intros Ha HP HW. eapply same_run, Ha; [done|lia]. Qed.
  Lemma states_any {A} (p : prog n A) st : Forall (λ _, True) (states B H p st).
  Proof. by apply Forall_forall. Qed.
  Theorem get_alike D r ks st : fits (wptr M) (D + 1) → fits (wptr M) (length ks) →
    alike (m_get M dec D r ks) (get dec D r ks) st.
  Proof.
    intros HD Hk. eapply agree_alike; [by apply get_agree|apply states_any|reflexivity].
  Qed.
  Theorem get_one_alike D r k st : fits (wptr M) (D + 1) → alike (m_get_one M dec D r k) (get_one dec D r k) st.
  Proof.
    intros HD. eapply agree_alike; [apply get_one_loop_agree; try done; apply fits_one|apply states_any|reflexivity].
  Qed.
  Theorem prove_alike D r k st : fits (wptr M) (D + 1) → fits (wptr M - 1) (deque_cap M D * n) →
    fits (wptr M - 1) (D * (n + 1)) →
    alike (m_generate_inclusion_proof M D r k) (generate_inclusion_proof D r k) st.
  Proof.
    intros HD H1 H2. unfold m_generate_inclusion_proof, m_with_capacity. unfold fits in H1, H2.
    rewrite Nat2N.inj_mul in H1, H2. apply N.ltb_lt in H1, H2. rewrite H1, H2. cbn [lift].
    eapply agree_alike; [apply gen_proof_loop_agree; try done; apply fits_one|apply states_any|reflexivity].
  Qed.

  (** Insertions: the numbers stored must be in range. *)
  Definition inserts {A} (p' p : prog n A) st : Prop :=
    Forall (in_range M B) (states B H p st) → fits (wcnt M) (writes B H p st) → fits (wptr M) (writes B H p st) →
    alike p' p st.
  Theorem insert_inserts D prev ks vs st : fits (wptr M) (D + 1) → fits (wptr M) (length ks) →
    inserts (m_insert M enc D prev ks vs) (insert enc D prev ks vs) st.
  Proof.
    intros HD Hk HP Hc Hp. eapply agree_alike; [by apply insert_agree|done|reflexivity].
  Qed.
  Theorem insert_one_inserts D prev k v st : fits (wptr M) (D + 1) →
    inserts (m_insert_one M enc D prev k v) (insert_one enc D prev k v) st.
  Proof.
    intros HD HP Hc Hp. eapply agree_alike; [apply insert_one_agree; try done; apply fits_one|done|reflexivity].
  Qed.
  Lemma cinv_in_range S C R st : cinv H S B C st → refs_le B R st → fits (wref M) C → fits (wref M) (R + 1) →
    in_range M B st.
  Proof.
    intros [[_ H1] [_ H2]] [H3 H4] HC HR l nd Hl.
    assert (vsize (var nd) ≤ C ∧ refs nd ≤ R) as [Hv Hr] by (destruct Hl as [Hl|Hl]; eauto).
    split; [eapply fits_le; [|exact HR]; lia|]. destruct (var nd); [|done|done]. by eapply fits_le.
  Qed.
  Theorem used_range st lg K W c : used B H enc dec st lg K W →
    no_collision H (lg ++ hlog B H (exec enc dec c) st) →
    fits (wref M) (1 + K + keys_of c) → fits (wref M) (W + writes B H (exec enc dec c) st + 1) →
    Forall (in_range M B) (states B H (exec enc dec c) st).
  Proof.
    intros Hu Hc HK HW. set (L := lg ++ hlog B H (exec enc dec c) st) in *.
    destruct (used_inv Hn B H enc dec L st lg K W Hu Hc) as [HJ Hr].
    { intros x Hx. apply elem_of_app. by left. }
    pose proof (call_inv Hn B H enc dec L c (1 + K) st Hc ltac:(intros x Hx; apply elem_of_app; by right) ltac:(lia) HJ) as H1.
    pose proof (exec_refs B H enc dec c W st Hr) as H2. apply Forall_cons in H2 as [_ H2].
    apply Forall_forall. intros st' Hst. rewrite Forall_forall in H1, H2.
    eapply cinv_in_range; eauto.
  Qed.
  (** A program and the same program with its result dropped. *)
  Lemma drop_result {A} (p : prog n A) st :
    states B H (p ;; mret tt) st = states B H p st ∧ writes B H (p ;; mret tt) st = writes B H p st ∧
    hlog B H (p ;; mret tt) st = hlog B H p st.
  Proof.
    change (p ;; mret tt) with (pbind (λ _ : A, Ret tt) p). unfold hlog.
    revert st. induction p as [a|e| | |cs k IH|l k IH|l nd k IH|l k IH|k IH]; intros st; try done;
      cbn [pbind states writes run].
    - destruct (IH (H cs) st) as (I1 & I2 & I3). rewrite I1, I2. split_and!; [done|done|].
      destruct (run B H (k (H cs)) st) as [[o s'] lg], (run B H (pbind (λ _, Ret tt) (k (H cs))) st) as [[o2 s2] lg2].
      cbn in *. congruence.
    - destruct (IH (b_vis B st !! l) st) as (I1 & I2 & I3). by rewrite I1, I2.
    - destruct (IH (b_put B st l nd)) as (I1 & I2 & I3). by rewrite I1, I2.
    - destruct (IH (b_del B st l)) as (I1 & I2 & I3). by rewrite I1, I2.
    - destruct (IH (b_flush B st)) as (I1 & I2 & I3). by rewrite I1, I2.
  Qed.

  Theorem used_insert st lg K W D prev ks vs : used B H enc dec st lg K W →
    no_collision H (lg ++ hlog B H (insert enc D prev ks vs) st) →
    fits (wptr M) (D + 1) → fits (wptr M) (length ks) →
    fits (wref M) (1 + K + length ks) → fits (wref M) (W + writes B H (insert enc D prev ks vs) st + 1) →
    fits (wcnt M) (writes B H (insert enc D prev ks vs) st) → fits (wptr M) (writes B H (insert enc D prev ks vs) st) →
    alike (m_insert M enc D prev ks vs) (insert enc D prev ks vs) st.
  Proof.
    intros Hu Hc HD Hk HK HW H1 H2. apply insert_inserts; try done.
    destruct (drop_result (insert enc D prev ks vs) st) as (E1 & E2 & E3).
    pose proof (used_range st lg K W (CInsert D prev ks vs) Hu) as Hr. cbn [exec keys_of] in Hr.
    rewrite E1, E2, E3 in Hr. by apply Hr.
  Qed.
  Theorem used_insert_one st lg K W D prev k v : used B H enc dec st lg K W →
    no_collision H (lg ++ hlog B H (insert_one enc D prev k v) st) → fits (wptr M) (D + 1) →
    fits (wref M) (2 + K) → fits (wref M) (W + writes B H (insert_one enc D prev k v) st + 1) →
    fits (wcnt M) (writes B H (insert_one enc D prev k v) st) → fits (wptr M) (writes B H (insert_one enc D prev k v) st) →
    alike (m_insert_one M enc D prev k v) (insert_one enc D prev k v) st.
  Proof.
    intros Hu Hc HD HK HW H1 H2. apply insert_one_inserts; try done.
    destruct (drop_result (insert_one enc D prev k v) st) as (E1 & E2 & E3).
    pose proof (used_range st lg K W (CInsertOne D prev k v) Hu) as Hr. cbn [exec keys_of] in Hr.
    rewrite E1, E2, E3 in Hr. apply Hr; [done| |done]. eapply fits_le; [|exact HK]. lia.
  Qed.

  Lemma alike_drop {A} P W Q (p' p : prog n A) st : agree B H P W 0 Q p' p st →
    Forall P (states B H (p ;; mret tt) st) → writes B H (p ;; mret tt) st ≤ W →
    alike (p' ;; mret tt) (p ;; mret tt) st.
  Proof.
    intros Ha HP HW. eapply (agree_alike P W (λ _ _ _, True)); [|done|done].
    eapply agree_bind; [exact Ha|]. intros. by apply agree_ret.
  Qed.
  Theorem used_exec st lg K W c : used B H enc dec st lg K W →
    no_collision H (lg ++ hlog B H (exec enc dec c) st) → call_fits M c →
    fits (wref M) (1 + K + keys_of c) → fits (wref M) (W + writes B H (exec enc dec c) st + 1) →
    fits (wcnt M) (writes B H (exec enc dec c) st) → fits (wptr M) (writes B H (exec enc dec c) st) →
    alike (m_exec M enc dec c) (exec enc dec c) st.
  Proof.
    intros Hu Hc Hf HK HW H1 H2. pose proof (used_range st lg K W c Hu Hc HK HW) as Hr. revert Hr H1 H2. clear HK HW.
    pose proof fits_one as Hone.
    destruct c as [D prev ks vs|D prev k v|D root ks|D root k|D root k|root k v proof]; cbn [m_exec exec call_fits] in *;
      intros Hr H1 H2.
    - destruct Hf as [Hf1 Hf2]. eapply alike_drop; [by apply insert_agree|done|reflexivity].
    - eapply alike_drop; [by apply insert_one_agree|done|reflexivity].
    - destruct Hf as [Hf1 Hf2]. eapply alike_drop; [by apply get_agree|apply states_any|reflexivity].
    - eapply alike_drop; [by apply get_one_loop_agree|apply states_any|reflexivity].
    - destruct Hf as (Hf1 & Hf2 & Hf3). unfold m_generate_inclusion_proof, m_with_capacity. unfold fits in Hf2, Hf3.
      rewrite Nat2N.inj_mul in Hf2, Hf3. apply N.ltb_lt in Hf2, Hf3. rewrite Hf2, Hf3. cbn [lift].
      eapply alike_drop; [by apply gen_proof_loop_agree|apply states_any|reflexivity].
    - done.
  Qed.

  Lemma used_step st lg K W o : used B H enc dec st lg K W →
    used B H enc dec (op_step B H (exec enc dec) st o).2 (lg ++ hlog B H (op_prog B enc dec st o) st)
      (K + op_keys o) (W + writes B H (op_prog B enc dec st o) st).
  Proof.
    intros Hu. destruct o as [c|c i|r|]; cbn [op_step op_prog op_keys snd].
    - eapply used_call; [done|]. apply run_in_states.
    - destruct (run_fault_states B H i (exec enc dec c) st) as [Hin|(s' & Hin & ->)].
      + by eapply used_call.
      + apply used_restart. by eapply used_call.
    - unfold remove_prog at 2, remove. rewrite remove_no_hash, app_nil_r, Nat.add_0_r.
      eapply used_remove; [done|]. apply run_in_states.
    - cbn. rewrite app_nil_r, !Nat.add_0_r. by apply used_restart.
  Qed.
  Theorem session_from st lg K W os : used B H enc dec st lg K W →
    no_collision H (lg ++ session_log B H enc dec st os) → session_fits B H enc dec M st os →
    fits (wref M) (1 + K + session_keys os) → fits (wref M) (W + session_writes B H enc dec st os + 1) →
    session B H (m_exec M enc dec) st os = session B H (exec enc dec) st os.
  Proof.
    revert st lg K W. induction os as [|o os IH]; intros st lg K W Hu Hc Hf HK HW; [done|].
    cbn [session session_log session_fits session_keys session_writes foldr] in *.
    destruct Hf as (Hf & Hw1 & Hw2 & Hfs). fold (session_keys os) in HK.
    assert (op_step B H (m_exec M enc dec) st o = op_step B H (exec enc dec) st o) as Ho.
    { assert (∀ c, op_prog B enc dec st o = exec enc dec c → op_keys o = keys_of c → call_fits M c →
        alike (m_exec M enc dec c) (exec enc dec c) st) as Ha.
      { intros c Hp Hk Hfc. rewrite Hp, ?Hk in *. apply (used_exec st lg K W c Hu).
        - eapply no_collision_sub; [|exact Hc]. intros x. rewrite !elem_of_app. naive_solver.
        - done.
        - eapply fits_le; [|exact HK]. lia.
        - eapply fits_le; [|exact HW]. lia.
        - done.
        - done. }
      destruct o as [c|c i|r|]; cbn [op_step]; [| |done|done];
        destruct (Ha c eq_refl eq_refl Hf) as (E1 & E2 & E3 & E4).
      - unfold out, fin. by rewrite E1.
      - apply E4. }
    rewrite Ho. f_equal. eapply IH; [by apply used_step| |done| |].
    - by rewrite <- app_assoc.
    - eapply fits_le; [|exact HK]. lia.
    - eapply fits_le; [|exact HW]. lia.
  Qed.
  Theorem session_same os : no_collision H (session_log B H enc dec (b_init B) os) →
    session_fits B H enc dec M (b_init B) os →
    fits (wref M) (1 + session_keys os) → fits (wref M) (1 + session_writes B H enc dec (b_init B) os) →
    session B H (m_exec M enc dec) (b_init B) os = session B H (exec enc dec) (b_init B) os.
  Proof.
    intros Hc Hf HK HW. apply (session_from (b_init B) [] 0 0); try done; [apply used_init|].
    by rewrite Nat.add_comm.
  Qed.
End Top.

(** ** Room for proofs
    [generate_inclusion_proof] reserves room for as many entries as the depth
    limit allows, whatever the depth of the tree. *)
Section Room.
  Context (M : build) {n : nat} (Hn : 0 < n) (B : backend n) {HB : BackendOk B} (H : list bytes → arr n).
  Context {V : Type} (enc : V → res bytes) (dec : bytes → res V) (Hcodec : codec_ok enc dec).
  Context (Hbits : fits (wptr M) (8 * n)).
  Implicit Types (st : b_st B) (k r : arr n).

  Theorem prove_overflow D r k st : ¬ fits (wptr M - 1) (D * (n + 1)) →
    run B H (m_generate_inclusion_proof M D r k) st = (RPanic, st, []).
  Proof.
    unfold fits. rewrite Nat2N.inj_mul. intros Hf. unfold m_generate_inclusion_proof, m_with_capacity.
    destruct (N.ltb_spec (N.of_nat (deque_cap M D) * N.of_nat n) (2 ^ (wptr M - 1))); [|done]. cbn [lift].
    change (mbind (M := prog n) ?f (Ret ?x)) with (f x). cbv beta.
    destruct (N.ltb_spec (N.of_nat D * N.of_nat (n + 1)) (2 ^ (wptr M - 1))); [lia|done].
  Qed.
  Theorem live_machine st lg r Mp D : live B H enc dec st lg r Mp → no_collision H lg → 8 * n + 1 ≤ D →
    fits (wptr M) (D + 1) →
    (∀ k, out B H (m_get_one M dec D r k) st = ROk (Mp !! k)) ∧
    (¬ fits (wptr M - 1) (D * (n + 1)) → ∀ k, out B H (m_generate_inclusion_proof M D r k) st = RPanic) ∧
    ((∀ d, deque_cap M d ≤ 2 * (d + 1)) → fits (wptr M - 1) (2 * (D + 1) * (n + 1)) → ∀ k,
       match Mp !! k with
       | Some v => ∃ proof, out B H (m_generate_inclusion_proof M D r k) st = ROk proof ∧
           ∀ (B' : backend n) (st' : b_st B'), out B' H (verify_inclusion_proof enc r k v proof) st' = ROk tt
       | None => ∃ er, out B H (m_generate_inclusion_proof M D r k) st = RErr er
       end).
  Proof.
    intros Hl Hc HD Hf. pose proof (live_handle Hn B H enc dec Hcodec st lg r Mp Hl Hc) as Hh.
    destruct (handle_serves Hn B H enc dec Hcodec lg st r Mp Hh) as (Hs1 & _ & Hs3 & Hs4). split_and!.
    - intros k. destruct (get_one_alike M Hn B H dec Hbits D r k st Hf) as [E _].
      unfold out. rewrite E. by apply Hs1.
    - intros Hno k. unfold out. by rewrite prove_overflow.
    - intros Hcap Hroom k.
      destruct (prove_alike M Hn B H Hbits D r k st Hf) as [E _].
      { eapply fits_le; [|exact Hroom]. specialize (Hcap D). nia. }
      { eapply fits_le; [|exact Hroom]. nia. }
      unfold out. rewrite E. destruct (Mp !! k) as [v|] eqn:Hk; [by apply Hs3|by apply Hs4].
  Qed.
End Room.

Section All.
  Context (M : build) {n : nat} (Hn : 0 < n) (B : backend n) {HB : BackendOk B} (H : list bytes → arr n).
  Context {V : Type} (dec : bytes → res V) (Hbits : fits (wptr M) (8 * n)).
  Theorem reads_alike D r st : fits (wptr M) (D + 1) →
    (∀ ks, fits (wptr M) (length ks) → alike B H (m_get M dec D r ks) (get dec D r ks) st) ∧
    (∀ k, alike B H (m_get_one M dec D r k) (get_one dec D r k) st) ∧
    (∀ k, fits (wptr M - 1) (deque_cap M D * n) → fits (wptr M - 1) (D * (n + 1)) →
       alike B H (m_generate_inclusion_proof M D r k) (generate_inclusion_proof D r k) st).
  Proof.
    intros HD. split_and!; intros.
    - exact (get_alike M Hn B H dec Hbits D r ks st HD ltac:(done)).
    - exact (get_one_alike M Hn B H dec Hbits D r k st HD).
    - exact (prove_alike M Hn B H Hbits D r k st HD ltac:(done) ltac:(done)).
  Qed.
End All.
