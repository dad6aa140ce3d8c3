(** * How the tree is used
    Requests and batches that are never lost, batches inserted pair by
    pair, and the buffers passed by the caller. *)
From Coq Require Import Strings.Byte NArith.
From stdpp Require Import prelude countable gmap sorting strings.
From Verif Require Import Model Bits Spec Util Trie Store Logic Safe Hist Claims Live Weak.

Local Open Scope nat_scope.

(** ** Batches that lose nothing *)
Section Benign.
  Context {n : nat} {A : Type}.
  Implicit Types (M : gmap (arr n) A) (ks : list (arr n)) (k x y : arr n).
  (** At most one key of the batch is absent from the tree. *)
  Definition one_new M ks : Prop := ∀ x y, x ∈ ks → y ∈ ks → M !! x = None → M !! y = None → x = y.
  Lemma benign_one_new M ks : one_new M ks → benign M ks.
  Proof.
    intros Hone (a & b & x & y & Ha & Hb & Hab & Hx & Hy & Hc). cbv zeta in Hc.
    destruct Hc as (H1 & H2 & H3 & H4 & Hnone).
    assert (∀ z, z ∈ ks → klcp x a ≤ klcp z a → klcp z a < klcp a b → M !! z = None) as Habs.
    { intros z Hz Hle Hlt. destruct (M !! z) as [v|] eqn:Hv; [|done].
      destruct (Hnone z); [by exists v|]. done. }
    assert (x = y) as ->; [|lia].
    apply Hone; [done|done| |]; apply Habs; try done; lia.
  Qed.
  Lemma present_one_new M ks : (∀ k, k ∈ ks → is_Some (M !! k)) → one_new M ks.
  Proof. intros Hp x y Hx _ Hn. destruct (Hp x Hx). congruence. Qed.
  (** One-byte keys. *)
  Lemma benign_one_byte M ks : n ≤ 1 → benign M ks.
  Proof.
    intros Hn (a & b & x & y & Ha & Hb & Hab & _ & _ & Hc). cbv zeta in Hc.
    destruct Hc as (H1 & _). pose proof (klcp_lt a b Hab).
    assert ((klcp a b - 1) / 8 = 0) by (apply Nat.div_small; lia). lia.
  Qed.
  (** At most two keys: a key can only be misled by two others. *)
  Lemma few_not_misled (P Q : arr n → Prop) ks : (∃ u v, ∀ k, k ∈ ks → k = u ∨ k = v) → ¬ misled P Q ks.
  Proof.
    intros (u & v & Huv) (a & b & x & y & d & _ & _ & _ & Hx & Hy & Hd & _ & Hc). cbv zeta in Hc.
    destruct Hc as (H1 & H2 & H3 & _ & H5 & _).
    assert (x ≠ y ∧ x ≠ d ∧ y ≠ d) as (? & ? & ?) by (split_and!; intros ->; lia).
    destruct (Huv x Hx) as [->| ->], (Huv y Hy) as [->| ->], (Huv d Hd) as [->| ->]; done.
  Qed.
  Definition few M ks : Prop := n = 1 ∨ one_new M ks ∨ ∃ u v, ∀ k, k ∈ ks → k = u ∨ k = v.
  Lemma few_mild M ks : few M ks → mild M ks.
  Proof.
    intros [Hn|[Hk|Hk]].
    - left. apply benign_one_byte. lia.
    - left. by apply benign_one_new.
    - right. by apply few_not_misled.
  Qed.
  Lemma few_mild_get M ks : few M ks → mild_get M ks.
  Proof. intros Hf. by apply mild_mild_get, few_mild. Qed.
  Lemma benign_sub M ks ks' : (∀ k, k ∈ ks' → k ∈ ks) → benign M ks → benign M ks'.
  Proof. intros Hs Hb (a & b & x & y & Hh). apply Hb. exists a, b, x, y. naive_solver. Qed.
End Benign.

(** ** One pair at a time *)
Section Each.
  Context {n : nat} {V : Type} (enc : V → res bytes).
  (** The caller's loop: [for (k, v) in pairs { root = Some(tree.insert_one(root, k, v)?) }]. *)
  Fixpoint insert_each (D : nat) (prev : option (arr n)) (kvs : list (arr n * V)) : prog n (option (arr n)) :=
    match kvs with
    | [] => mret prev
    | (k, v) :: kvs' => r ← insert_one enc D prev k v; insert_each D (Some r) kvs'
    end.
  (** What the pairs, written in this order, make of a map. *)
  Definition written (M : gmap (arr n) V) (kvs : list (arr n * V)) : gmap (arr n) V :=
    foldl (λ m kv, <[kv.1 := kv.2]> m) M kvs.
  Lemma written_app M a b : written M (a ++ b) = written (written M a) b.
  Proof. apply foldl_app. Qed.
  Lemma written_lookup M kvs k : written M kvs !! k =
    match last (filter (λ kv, kv.1 = k) kvs) with Some kv => Some kv.2 | None => M !! k end.
  Proof.
    induction kvs as [|[k' v'] kvs IH] using rev_ind; [done|].
    rewrite written_app, filter_app. cbn [written foldl fst snd].
    destruct (decide (k' = k)) as [->|Hne].
    - rewrite lookup_insert, filter_cons_True by done. rewrite filter_nil, last_snoc. done.
    - rewrite lookup_insert_ne by done. rewrite (filter_cons_False _ (k', v') []) by done.
      by rewrite filter_nil, app_nil_r.
  Qed.
  Lemma written_updated M ks vs : length ks = length vs → NoDup ks → written M (zip ks vs) = updated M ks vs.
  Proof.
    intros Hlen Hnd. unfold updated. revert M vs Hlen.
    induction ks as [|k ks IH]; intros M [|v vs] Hlen; try done.
    { simpl. by rewrite (left_id_L ∅ (∪)). }
    apply NoDup_cons in Hnd as [Hk Hnd]. simpl in Hlen.
    change (written M (zip (k :: ks) (v :: vs))) with (written (<[k := v]> M) (zip ks vs)).
    rewrite IH by (done || lia). cbn [zip zip_with list_to_map foldr]. simpl.
    rewrite <- insert_union_r; [by rewrite insert_union_l|].
    apply not_elem_of_list_to_map. by rewrite fst_zip by lia.
  Qed.
End Each.

Section EachClaims.
  Context {n : nat} (Hn : 0 < n) (B : backend n) {HB : BackendOk B} (H : list bytes → arr n).
  Context {V : Type} (enc : V → res bytes) (dec : bytes → res V) (Hcodec : codec_ok enc dec).
  Implicit Types (st : b_st B) (lg : list (list bytes)) (k r : arr n) (ks : list (arr n)) (vs : list V).
  Implicit Types (M : gmap (arr n) V) (hs : list (arr n * gmap (arr n) V)).
  Notation hist := (hist B H enc dec).

  Theorem each_total kvs st lg hs D prev M : hist st lg hs → prev_holds hs prev M →
    no_collision H (lg ++ hlog B H (insert_each enc D prev kvs) st) →
    (∀ k v, (k, v) ∈ kvs → ∃ e, enc v = Ok e) → 8 * n ≤ D → kvs ≠ [] →
    ∃ r hs', out B H (insert_each enc D prev kvs) st = ROk (Some r) ∧
      hist (fin B H (insert_each enc D prev kvs) st) (lg ++ hlog B H (insert_each enc D prev kvs) st) hs' ∧
      (r, written M kvs) ∈ hs' ∧ (∀ h, h ∈ hs → h ∈ hs').
  Proof.
    revert st lg hs prev M. induction kvs as [|[k v] kvs IH]; intros st lg hs prev M Hh Hp Hc He HD Hne; [done|]. clear Hne.
    cbn [insert_each] in *.
    assert (∃ r, out B H (insert enc D prev [k] [v]) st = ROk r ∧
      hist (fin B H (insert enc D prev [k] [v]) st) (lg ++ hlog B H (insert enc D prev [k] [v]) st)
           ((r, updated M [k] [v]) :: hs)) as (r & Hout & Hh').
    { destruct (insert_total Hn B H enc dec Hcodec st lg hs D prev M [k] [v]) as (r & Ho & Hh' & _); eauto.
      - eapply no_collision_sub; [|exact Hc]. intros x Hx. apply elem_of_app in Hx as [Hx|Hx]; [set_solver|].
        apply elem_of_app. right. unfold hlog. rewrite run_bind.
        rewrite insert_one_insert. unfold hlog in Hx.
        destruct (run B H (insert enc D prev [k] [v]) st) as [[[a|e| |] s'] lg'] eqn:Hr; try done.
        destruct (run B H (insert_each enc D (Some a) kvs) s') as [[o s''] lg'']. simpl in *. set_solver.
      - left. apply benign_single.
      - apply NoDup_singleton.
      - intros v' ->%elem_of_list_singleton. eapply He. left. }
    rewrite updated_single in Hh'.
    assert (∀ A (f : arr n → prog n A),
      out B H (r ← insert_one enc D prev k v; f r) st = out B H (f r) (fin B H (insert enc D prev [k] [v]) st) ∧
      fin B H (r ← insert_one enc D prev k v; f r) st = fin B H (f r) (fin B H (insert enc D prev [k] [v]) st) ∧
      hlog B H (r ← insert_one enc D prev k v; f r) st =
        hlog B H (insert enc D prev [k] [v]) st ++ hlog B H (f r) (fin B H (insert enc D prev [k] [v]) st)) as Hb.
    { intros A f. unfold out, fin, hlog in *. rewrite run_bind, insert_one_insert.
      destruct (run B H (insert enc D prev [k] [v]) st) as [[o s'] lg'] eqn:Hr. cbn [fst snd] in *. subst o.
      by destruct (run B H (f r) s') as [[o s''] lg'']. }
    destruct (Hb _ (λ r, insert_each enc D (Some r) kvs)) as (-> & -> & Hlog). rewrite Hlog in *. clear Hb Hlog.
    destruct kvs as [|kv kvs].
    - exists r, ((r, <[k := v]> M) :: hs). cbn [insert_each]. split_and!; [done| |left|by right].
      change (hlog B H (mret (Some r)) _) with (@nil (list bytes)). by rewrite app_nil_r.
    - destruct (IH _ _ _ (Some r) (<[k := v]> M) Hh' ltac:(by left)) as (r' & hs' & Ho & Hh'' & Hin & Hsub); try done.
      + by rewrite <- app_assoc.
      + intros k' v' Hkv. eapply He. by right.
      + exists r', hs'. rewrite app_assoc. split_and!; try done. intros h Hh0. apply Hsub. by right.
  Qed.
  (** C56 *)
  Theorem each_holds st lg hs D prev M kvs : hist st lg hs → prev_holds hs prev M →
    no_collision H (lg ++ hlog B H (insert_each enc D prev kvs) st) →
    (∀ k v, (k, v) ∈ kvs → ∃ e, enc v = Ok e) → 8 * n ≤ D → kvs ≠ [] →
    ∃ r, out B H (insert_each enc D prev kvs) st = ROk (Some r) ∧
      serves B H enc dec (fin B H (insert_each enc D prev kvs) st) r (foldl (λ m kv, <[kv.1 := kv.2]> m) M kvs) ∧
      (∀ r' M', (r', M') ∈ hs → serves B H enc dec (fin B H (insert_each enc D prev kvs) st) r' M').
  Proof.
    intros Hh Hp Hc He HD Hne.
    destruct (each_total kvs st lg hs D prev M) as (r & hs' & Ho & Hh' & Hin & Hsub); try done.
    assert (∀ r' M', (r', M') ∈ hs' → serves B H enc dec (fin B H (insert_each enc D prev kvs) st) r' M') as Hs.
    { intros r' M' Hr'. eapply (handle_serves Hn B H enc dec Hcodec).
      by eapply (hist_handle Hn B H enc dec Hcodec). }
    exists r. split_and!; auto.
  Qed.
  Lemma insert_ok_args st lg hs D prev M ks vs r : hist st lg hs → prev_holds hs prev M → mild M ks →
    no_collision H (lg ++ hlog B H (insert enc D prev ks vs) st) →
    out B H (insert enc D prev ks vs) st = ROk r →
    length ks = length vs ∧ ks ≠ [] ∧ NoDup ks ∧ ∀ v, v ∈ vs → ∃ e, enc v = Ok e.
  Proof using HB Hn Hcodec.
    intros Hh Hp Hb Hc1 Ho.
    destruct (decide (length ks = length vs ∧ ks ≠ [])) as [[Hlen Hne]|Hbad].
      2:{ destruct (malformed_rejected B H enc D prev ks vs st) as (er & Hx & _); [|congruence].
          destruct (decide (length ks = length vs)); [|by left]. right. apply dec_stable. naive_solver. }
      destruct (decide (NoDup ks)) as [Hnd|Hnd].
      2:{ destruct (duplicates_rejected Hn B H enc dec Hcodec st lg hs D prev ks vs Hh Hc1 Hnd) as [er Hx]. congruence. }
      split_and!; try done. intros v Hv.
      assert (hist (fin B H (insert enc D prev ks vs) st) (lg ++ hlog B H (insert enc D prev ks vs) st)
        ((r, updated M ks vs) :: hs)) as Hh' by (by eapply hist_insert).
      destruct (hist_handle Hn B H enc dec Hcodec _ _ _ r (updated M ks vs) Hh' Hc1 ltac:(left)) as (t & _ & _ & _ & _ & Hen).
      apply elem_of_list_lookup in Hv as [i Hi].
      destruct (lookup_lt_is_Some_2 ks i) as [k Hk]; [rewrite Hlen; by eapply lookup_lt_Some|].
      specialize (Hen k). assert (updated M ks vs !! k = Some v) as Hu.
      { unfold updated. apply lookup_union_Some_l, elem_of_list_to_map; [by rewrite fst_zip by lia|].
        apply elem_of_list_lookup. exists i. by rewrite lookup_zip_with, Hk, Hi. }
      simpl in Hen. rewrite Hu in Hen. inversion Hen. eauto.
  Qed.
  (** C56: the same root as the batch *)
  Theorem each_batch st lg hs D prev M ks vs r : hist st lg hs → prev_holds hs prev M → mild M ks →
    no_collision H (lg ++ hlog B H (insert enc D prev ks vs) st) →
    no_collision H (lg ++ hlog B H (insert_each enc D prev (zip ks vs)) st) → 8 * n ≤ D →
    out B H (insert enc D prev ks vs) st = ROk r →
    out B H (insert_each enc D prev (zip ks vs)) st = ROk (Some r).
  Proof.
    intros Hh Hp Hb Hc1 Hc2 HD Ho.
    destruct (insert_ok_args st lg hs D prev M ks vs r) as (Hlen & Hne & Hnd & He); try done.
    destruct (each_total (zip ks vs) st lg hs D prev M) as (r' & hs' & Ho' & Hh' & Hin & Hsub); try done.
    { intros k v Hkv. apply He. by eapply elem_of_zip_r. }
    { destruct ks, vs; done. }
    rewrite Ho'. do 2 f_equal. rewrite written_updated in Hin by done.
    eapply (root_determined Hn B B H enc dec Hcodec); [exact Hh'| |exact Hc2|exact Hc1|exact Hin|left].
    by eapply hist_insert.
  Qed.
End EachClaims.

(** ** Few absent keys *)
Section Few.
  Context {n : nat} (Hn : 0 < n) (B : backend n) {HB : BackendOk B} (H : list bytes → arr n).
  Context {V : Type} (enc : V → res bytes) (dec : bytes → res V) (Hcodec : codec_ok enc dec).
  Implicit Types (st : b_st B) (lg : list (list bytes)) (k r : arr n) (ks : list (arr n)) (vs : list V).
  Implicit Types (M : gmap (arr n) V) (hs : list (arr n * gmap (arr n) V)).
  Lemma serves_get st r M D ks : serves B H enc dec st r M → mild_get M ks → 8 * n ≤ D →
    ∃ lm, out B H (get dec D r ks) st = ROk lm ∧ (∀ k, k ∈ ks → lm !! k = Some (M !! k)) ∧ (∀ k, k ∉ ks → lm !! k = None).
  Proof.
    intros (_ & Hg & _) Hb HD. destruct (Hg D ks HD Hb) as (lm & Ho & Hl). exists lm. split; [done|].
    split; intros k Hk; rewrite Hl; by destruct (decide _).
  Qed.
  (** C54 *)
  Theorem get_one_new st lg hs r M D ks : whist B H enc dec st lg hs → no_collision H lg → (r, M) ∈ hs →
    n = 1 ∨ (∀ x y, x ∈ ks → y ∈ ks → M !! x = None → M !! y = None → x = y) ∨
      (∃ u v, ∀ k, k ∈ ks → k = u ∨ k = v) → 8 * n ≤ D →
    ∃ lm, out B H (get dec D r ks) st = ROk lm ∧ (∀ k, k ∈ ks → lm !! k = Some (M !! k)) ∧ (∀ k, k ∉ ks → lm !! k = None).
  Proof.
    intros Hh Hc Hin Hk HD. eapply serves_get; [by eapply (weak_serves Hn B H enc dec Hcodec)| |done].
    by apply few_mild_get.
  Qed.
  (** C55 *)
  Theorem insert_one_new st lg hs D r M ks vs : hist B H enc dec st lg hs →
    no_collision H (lg ++ hlog B H (insert enc D (Some r) ks vs) st) → (r, M) ∈ hs →
    n = 1 ∨ (∀ x y, x ∈ ks → y ∈ ks → M !! x = None → M !! y = None → x = y) ∨
      (∃ u v, ∀ k, k ∈ ks → k = u ∨ k = v) →
    length ks = length vs → ks ≠ [] → NoDup ks → (∀ v, v ∈ vs → ∃ e, enc v = Ok e) → 8 * n ≤ D →
    ∃ r', out B H (insert enc D (Some r) ks vs) st = ROk r' ∧
      serves B H enc dec (fin B H (insert enc D (Some r) ks vs) st) r' (list_to_map (zip ks vs) ∪ M).
  Proof.
    intros Hh Hc Hin Hk ?????.
    destruct (insert_total Hn B H enc dec Hcodec st lg hs D (Some r) M ks vs) as (r' & Ho & Hh' & _); auto.
    { by apply few_mild. }
    exists r'. split; [done|]. eapply (handle_serves Hn B H enc dec Hcodec).
    eapply (hist_handle Hn B H enc dec Hcodec); [exact Hh'|done|left].
  Qed.
End Few.

(** ** Calls made again, and the caller's buffers *)
Section Again.
  Context {n : nat} (Hn : 0 < n) (B : backend n) {HB : BackendOk B} (H : list bytes → arr n).
  Context {V : Type} (enc : V → res bytes) (dec : bytes → res V) (Hcodec : codec_ok enc dec).
  Implicit Types (st : b_st B) (lg : list (list bytes)) (k r : arr n) (ks : list (arr n)) (vs : list V).
  Implicit Types (M : gmap (arr n) V) (hs : list (arr n * gmap (arr n) V)).
  Notation hist := (hist B H enc dec).

  (** The same arguments give the same root, in any later state. *)
  Theorem insert_again st lg hs D prev M ks vs r cs st' D' :
    hist st lg hs → prev_holds hs prev M → mild M ks →
    out B H (insert enc D prev ks vs) st = ROk r →
    st' = after B H enc dec (fin B H (insert enc D prev ks vs) st) cs →
    no_collision H (lg ++ hlog B H (insert enc D prev ks vs) st ++
      after_log B H enc dec (fin B H (insert enc D prev ks vs) st) cs ++ hlog B H (insert enc D' prev ks vs) st') →
    8 * n ≤ D' → out B H (insert enc D' prev ks vs) st' = ROk r.
  Proof.
    intros Hh Hp Hb Ho -> Hc HD'.
    assert (hist (fin B H (insert enc D prev ks vs) st) (lg ++ hlog B H (insert enc D prev ks vs) st)
      ((r, updated M ks vs) :: hs)) as Hh1 by (by eapply hist_insert).
    assert (no_collision H (lg ++ hlog B H (insert enc D prev ks vs) st)) as Hc1.
    { eapply no_collision_sub; [|exact Hc]. intros x. rewrite !elem_of_app. naive_solver. }
    destruct (insert_ok_args Hn B H enc dec Hcodec st lg hs D prev M ks vs r) as (Hlen & Hne & Hnd & He); try done.
    assert (∀ st0 lg0 hs0, hist st0 lg0 hs0 →
      hist (after B H enc dec st0 cs) (lg0 ++ after_log B H enc dec st0 cs) hs0) as Hafter.
    { clear. induction cs as [|c cs IH]; intros st0 lg0 hs0 H0; cbn [after after_log].
      - by rewrite app_nil_r.
      - rewrite app_assoc. apply IH. by apply hist_call. }
    apply Hafter in Hh1. set (st' := after B H enc dec _ cs) in *.
    set (lg' := (lg ++ hlog B H (insert enc D prev ks vs) st) ++ after_log B H enc dec _ cs) in *.
    assert (no_collision H (lg' ++ hlog B H (insert enc D' prev ks vs) st')) as Hc2.
    { unfold lg'. by rewrite <- !app_assoc. }
    destruct (insert_total Hn B H enc dec Hcodec st' lg' _ D' prev M ks vs Hh1 Hc2) as (r' & Ho' & Hh' & _); auto.
    { destruct prev; [by right|done]. }
    rewrite Ho'. f_equal.
    eapply (root_determined Hn B B H enc dec Hcodec); [exact Hh'|exact Hh'|exact Hc2|exact Hc2|left|by right; left].
  Qed.
  (** A slice in ascending order is left as it is, and so is the slice of a call
      rejected for its lengths; otherwise it is left in ascending order, with the
      same keys. *)
  Theorem buffer_after ks vs : keys_after_insert ks vs ≡ₚ ks ∧ keys_after_get ks ≡ₚ ks ∧
    (length ks = length vs → ks ≠ [] → StronglySorted arr_le (keys_after_insert ks vs)) ∧
    (length ks ≠ length vs → keys_after_insert ks vs = ks) ∧
    StronglySorted arr_le (keys_after_get ks) ∧
    (StronglySorted arr_le ks → keys_after_insert ks vs = ks ∧ keys_after_get ks = ks).
  Proof.
    assert (keys_after_get ks = sort_keys ks) as -> by (by destruct ks). unfold keys_after_insert.
    split_and!.
    - destruct (negb _); [done|]. destruct (_ || _); [done|]. apply sort_keys_perm.
    - apply sort_keys_perm.
    - intros Hlen Hne. rewrite <- Hlen, Nat.eqb_refl. destruct ks as [|k ks]; [done|]. apply sort_keys_sorted.
    - intros Hlen. by apply Nat.eqb_neq in Hlen as ->.
    - apply sort_keys_sorted.
    - intros Hs. rewrite sort_keys_id by done. split; [|done]. destruct (negb _); [done|]. by destruct (_ || _).
  Qed.
  (** The order of a request does not matter. *)
  Theorem get_order D r ks ks' st : ks ≡ₚ ks' → run B H (get dec D r ks) st = run B H (get dec D r ks') st.
  Proof.
    intros Hp. destruct ks as [|k ks]; [by apply Permutation_nil_l in Hp as ->|].
    destruct ks' as [|k' ks']; [by apply Permutation_nil_r in Hp|].
    unfold get. rewrite (sort_keys_proper _ _ Hp). f_equal.
    assert (∀ (l l' : list (arr n)), l ≡ₚ l' → generate_leaf_map (V:=V) l = generate_leaf_map l') as Hg; [|by rewrite (Hg _ _ Hp)].
    clear. intros l l' Hp. unfold generate_leaf_map. apply map_eq. intros x.
    assert (∀ l (m : gmap (arr n) (option V)), foldl (λ m k, <[k := None]> m) m l !! x =
      if decide (x ∈ l) then Some None else m !! x) as Hl.
    { clear. induction l as [|k l IH]; intros m; [done|]. cbn [foldl]. rewrite IH.
      destruct (decide (x ∈ l)) as [|Hx]; [by rewrite decide_True by (by right)|].
      destruct (decide (x = k)) as [->|Hne].
      - rewrite lookup_insert, decide_True by left. done.
      - rewrite lookup_insert_ne by done. rewrite decide_False; [done|].
        by intros [?|?]%elem_of_cons. }
    rewrite !Hl. destruct (decide (x ∈ l)) as [Hx|Hx], (decide (x ∈ l')) as [Hx'|Hx']; try done.
    - destruct Hx'. by rewrite <- Hp.
    - destruct Hx. by rewrite Hp.
  Qed.
End Again.
