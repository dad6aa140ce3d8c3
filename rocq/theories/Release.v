(** * Other implementations of the searches of the standard library
    [partition_point] and [binary_search] are documented for partitioned and sorted
    slices only.  The functions that use them, with the two as parameters. *)
From Coq Require Import Strings.Byte NArith.
From stdpp Require Import prelude countable gmap sorting strings.
From Verif Require Import Model Bits Spec Util Trie Store Logic Build Evol Route Reads Insert Update Safe Get Total
  Hist Claims RefCount Live Weak Cost Need Moved.

Local Open Scope nat_scope.

Section Model2.
  Context {n : nat} (pp : (arr n → bool) → list (arr n) → nat) (bs : list (arr n) → arr n → option nat).
  Context {V : Type} (encode : V → res bytes) (decode : bytes → res V) (max_depth : nat).
  Implicit Types (k : arr n) (ks keys : list (arr n)).

  (** [split_pairs] (tree_utils.rs:42-71); [split_at] panics beyond the end. *)
  Definition split_pairs_with ks (bit : nat) : res (list (arr n) * list (arr n)) :=
    match head ks, last ks with
    | Some first, Some last =>
        zl ← choose_zero last bit;
        if zl : bool then Ok (ks, [])
        else
          zf ← choose_zero first bit;
          if negb zf then Ok ([], ks)
          else
            let c := pp (λ v, match choose_zero v bit with Ok b => b | _ => false end) ks in
            if c <=? length ks then Ok (take c ks, drop c ks) else Pan
    | _, _ => Ok ([], [])
    end.
  (** [traverse_tree] (merkle_bit.rs:252-348). *)
  Fixpoint traverse_tree_with (fuel : nat) (key_map : gmap (arr n) (arr n))
      (acc : list (tref n)) (queue : list (cell (n := n))) : prog n (list (tref n)) :=
    match queue with
    | [] => mret acc
    | c :: q =>
        match fuel with
        | 0 => Fuel
        | S fuel' =>
            if max_depth <? cdepth c then Throw "Depth of merkle tree exceeded"
            else
              match var (cnode c) with
              | VData _ => Throw "Corrupt merkle tree: Found data node while traversing tree"
              | VLeaf lk _ =>
                  match key_map !! lk with
                  | Some l =>
                      if decide (l = cloc c)
                      then insert_leaf (cloc c) ;; traverse_tree_with fuel' key_map acc q
                      else traverse_tree_with fuel' key_map acc q
                  | None =>
                      insert_leaf (cloc c) ;;
                      traverse_tree_with fuel' key_map (acc ++ [TRef lk (cloc c) 1 1]) q
                  end
              | VBranch count zero one si bk =>
                  m ← lift (calc_min_split_index (ckeys c) bk);
                  descendants ←
                    (if m <? si
                     then lift (check_descendants (ckeys c) si bk m)
                     else mret (ckeys c));
                  if (m <? si) && (length descendants =? 0) then
                    db_insert (cloc c) (Node (refs (cnode c) + 1) (VBranch count zero one si bk)) ;;
                    traverse_tree_with fuel' key_map (acc ++ [TRef bk (cloc c) count 1]) q
                  else
                    zo ← lift (split_pairs_with descendants si);
                    r1 ← split_nodes (cdepth c) one zo.2;
                    let '(acc, q) := push_split r1 acc q in
                    r0 ← split_nodes (cdepth c) zero zo.1;
                    let '(acc, q) := push_split r0 acc q in
                    traverse_tree_with fuel' key_map acc q
              end
        end
    end.
  (** [generate_treerefs] (merkle_bit.rs:227-249), [insert] (merkle_bit.rs:184-222). *)
  Definition generate_treerefs_with (root : arr n) keys (key_map : gmap (arr n) (arr n)) : prog n (list (tref n)) :=
    o ← get_node root;
    match o with
    | None => Throw "Could not find root"
    | Some nd => traverse_tree_with (traverse_fuel max_depth keys) key_map [] [Cell root keys nd 0]
    end.
  Definition insert_sorted_with (previous_root : option (arr n)) keys (value_map : gmap (arr n) V) : prog n (arr n) :=
    nodes ← insert_leaves encode value_map keys;
    let tree_refs := zip_with (λ l k, TRef k l 1 1) nodes keys in
    let key_map := key_map_of keys nodes in
    proof_nodes ←
      (match previous_root with
       | Some root => generate_treerefs_with root keys key_map
       | None => mret []
       end);
    create_tree (tree_refs ++ proof_nodes).
  Definition insert_with (previous_root : option (arr n)) keys (values : list V) : prog n (arr n) :=
    if negb (length keys =? length values) then Throw "Keys and values have different lengths"
    else if (length keys =? 0) || (length values =? 0) then Throw "Keys or values are empty"
    else insert_sorted_with previous_root (sort_keys keys) (value_map_of keys values).

  (** [get] (merkle_bit.rs:77-156). *)
  Fixpoint get_loop_with (fuel : nat) keys (leaf_map : gmap (arr n) (option V))
      (queue : list (cell (n := n))) : prog n (gmap (arr n) (option V)) :=
    match queue with
    | [] => mret leaf_map
    | c :: q =>
        match fuel with
        | 0 => Fuel
        | S fuel' =>
            if max_depth <? cdepth c then Throw "Depth of merkle tree exceeded"
            else
              match var (cnode c) with
              | VBranch _ zero one si bk =>
                  m ← lift (calc_min_split_index (ckeys c) bk);
                  descendants ← lift (check_descendants (ckeys c) si bk m);
                  match descendants with
                  | [] => get_loop_with fuel' keys leaf_map q
                  | _ =>
                      zo ← lift (split_pairs_with descendants si);
                      q ← push_cell_if_node q (cdepth c) one zo.2;
                      q ← push_cell_if_node q (cdepth c) zero zo.1;
                      get_loop_with fuel' keys leaf_map q
                  end
              | VLeaf lk ld =>
                  o ← get_node ld;
                  match o with
                  | Some nd =>
                      match var nd with
                      | VData e =>
                          v ← lift (decode e);
                          match bs keys lk with
                          | Some i =>
                              k ← lift (index keys i);
                              get_loop_with fuel' keys (<[k := Some v]> leaf_map) q
                          | None => get_loop_with fuel' keys leaf_map q
                          end
                      | _ => Throw "Corrupt merkle tree: Found non data node after leaf"
                      end
                  | None => Throw "Corrupt merkle tree: Failed to get leaf node from DB"
                  end
              | VData _ => Throw "Corrupt merkle tree: Found data node while traversing tree"
              end
        end
    end.
  Definition get_with (root : arr n) keys : prog n (gmap (arr n) (option V)) :=
    match keys with
    | [] => mret ∅
    | _ =>
        let leaf_map := generate_leaf_map keys in
        let keys := sort_keys keys in
        o ← get_node root;
        match o with
        | None => mret leaf_map
        | Some nd => get_loop_with (traverse_fuel max_depth keys) keys leaf_map [Cell root keys nd 0]
        end
    end.
End Model2.

(** What the documentation promises: the point of a partitioned slice; a position
    of the key in a sorted slice, if there is one. *)
Definition documented_pp {n} (pp : (arr n → bool) → list (arr n) → nat) : Prop :=
  ∀ p xs c, c ≤ length xs → (∀ i x, i < c → xs !! i = Some x → p x = true) →
    (∀ i x, c ≤ i → xs !! i = Some x → p x = false) → pp p xs = c.
Definition documented_bs {n} (bs : list (arr n) → arr n → option nat) : Prop :=
  ∀ xs k, StronglySorted arr_le xs → match bs xs k with Some i => xs !! i = Some k | None => k ∉ xs end.

(** [slice::binary_search_by] of Rust 1.82 and later:
    [while size > 1 { half = size / 2; mid = base + half; if f(mid) != Greater { base = mid }; size -= half }]. *)
Fixpoint search_1_82 {A} (f : A → comparison) (xs : list A) (fuel base size : nat) : nat :=
  match fuel with
  | 0 => base
  | S fuel' =>
      if 1 <? size then
        let half := size / 2 in
        let mid := base + half in
        let base := match f <$> xs !! mid with Some Gt => base | _ => mid end in
        search_1_82 f xs fuel' base (size - half)
      else base
  end.
Definition binary_search_by_1_82 {A} (f : A → comparison) (xs : list A) : nat + nat :=
  match xs with
  | [] => inr 0
  | _ =>
      let base := search_1_82 f xs (length xs) 0 (length xs) in
      match f <$> xs !! base with
      | Some Eq => inl base
      | Some Lt => inr (base + 1)
      | _ => inr base
      end
  end.
Definition pp_1_82 {n} (p : arr n → bool) (xs : list (arr n)) : nat :=
  match binary_search_by_1_82 (λ x, if p x then Lt else Gt) xs with inl i => i | inr i => i end.
Definition bs_1_82 {n} (xs : list (arr n)) (k : arr n) : option nat :=
  match binary_search_by_1_82 (λ x, arr_cmp x k) xs with inl i => Some i | inr _ => None end.

(** ** Both implementations do what is documented *)
Section Documented.
  Context {n : nat}.
  Lemma old_pp_documented : documented_pp (n := n) partition_point.
  Proof.
    intros p xs c Hc H1 H2. destruct (partition_point_spec p xs) as [G1 G2].
    { intros i j x y Hij Hx Hy Hpy. destruct (decide (j < c)) as [|Hjc]; [by apply (H1 i x); [lia|]|].
      rewrite (H2 j y) in Hpy; [done|lia|done]. }
    pose proof (partition_point_le p xs) as Hle. set (d := partition_point p xs) in *.
    destruct (lt_eq_lt_dec d c) as [[Hlt|]|Hlt]; [|done|].
    - destruct (lookup_lt_is_Some_2 xs d) as [x Hx]; [lia|]. pose proof (H1 d x Hlt Hx). pose proof (G2 d x ltac:(lia) Hx). congruence.
    - destruct (lookup_lt_is_Some_2 xs c) as [x Hx]; [lia|]. pose proof (H2 c x ltac:(lia) Hx). pose proof (G1 c x Hlt Hx). congruence.
  Qed.
  Lemma old_bs_documented : documented_bs (n := n) binary_search.
  Proof. intros xs k Hs. by apply binary_search_spec. Qed.

  (** The invariant of the new loop: what is before [base] is not greater, what is
      from [base + size] on is greater. *)
  Lemma search_1_82_spec {A} (f : A → comparison) (xs : list A) fuel base size :
    (∀ i j x y, i < j → xs !! i = Some x → xs !! j = Some y → f x = Gt → f y = Gt) →
    1 ≤ size → size ≤ fuel → base + size ≤ length xs →
    (∀ i x, i < base → xs !! i = Some x → f x ≠ Gt) → (∀ i x, base + size ≤ i → xs !! i = Some x → f x = Gt) →
    (base = 0 ∨ ∀ x, xs !! base = Some x → f x ≠ Gt) →
    let b := search_1_82 f xs fuel base size in
    b < length xs ∧ (∀ i x, i < b → xs !! i = Some x → f x ≠ Gt) ∧ (∀ i x, b < i → xs !! i = Some x → f x = Gt) ∧
    (b = 0 ∨ ∀ x, xs !! b = Some x → f x ≠ Gt).
  Proof.
    intros Hm. revert base size. induction fuel as [|fuel IH]; intros base size H1 Hf Hl HL HR H0; [lia|].
    cbn [search_1_82]. destruct (Nat.ltb_spec 1 size) as [Hs|Hs].
    - assert (0 < size / 2 ∧ size / 2 < size) as [Hh1 Hh2].
      { split; [apply Nat.div_str_pos; lia|apply Nat.div_lt; lia]. }
      destruct (lookup_lt_is_Some_2 xs (base + size / 2)) as [x Hx]; [lia|]. rewrite Hx. cbn [fmap option_fmap option_map].
      assert (size - size / 2 ≤ fuel) as Hf' by lia.
      assert (f x ≠ Gt → let b := search_1_82 f xs fuel (base + size / 2) (size - size / 2) in
        b < length xs ∧ (∀ i x, i < b → xs !! i = Some x → f x ≠ Gt) ∧ (∀ i x, b < i → xs !! i = Some x → f x = Gt) ∧
        (b = 0 ∨ ∀ x, xs !! b = Some x → f x ≠ Gt)) as Hge.
      { intros Hng. apply IH; try lia.
        - intros i y Hi Hy Hg. apply Hng. eapply Hm; [exact Hi|done|done|done].
        - intros i y Hi. apply HR. lia.
        - right. intros y Hy. rewrite Hx in Hy. by injection Hy as <-. }
      destruct (f x) eqn:Hfx; [by apply Hge|by apply Hge|].
      apply IH; try lia; [done| |done]. intros i y Hi Hy. destruct (decide (i = base + size / 2)) as [->|Hne].
      { rewrite Hx in Hy. by injection Hy as <-. }
      assert (2 * (size / 2) ≤ size) by (apply Nat.mul_div_le; lia).
      eapply (Hm (base + size / 2) i); [lia|exact Hx|exact Hy|done].
    - split_and!; [lia|done| |done]. intros i x Hi. apply HR. lia.
  Qed.
  Lemma new_pp_documented : documented_pp (n := n) pp_1_82.
  Proof.
    intros p xs c Hc H1 H2. unfold pp_1_82, binary_search_by_1_82. destruct xs as [|x0 xs0]; [cbn in *; lia|].
    set (xs := x0 :: xs0) in *. set (f := λ x, if p x then Lt else Gt).
    destruct (search_1_82_spec f xs (length xs) 0 (length xs)) as (Hb & HL & HR & H0); try (cbn; lia).
    { intros i j x y Hij Hx Hy. unfold f. destruct (p x) eqn:Hpx; [done|]. intros _.
      assert (c ≤ i) as Hci. { destruct (decide (c ≤ i)); [done|]. rewrite (H1 i x) in Hpx; [done|lia|done]. }
      rewrite (H2 j y); [done|lia|done]. }
    { intros i x Hi Hx. apply lookup_lt_Some in Hx. lia. }
    set (b := search_1_82 f xs (length xs) 0 (length xs)) in *.
    destruct (lookup_lt_is_Some_2 xs b Hb) as [y Hy]. rewrite Hy. cbn [fmap option_fmap option_map]. unfold f at 1.
    destruct (p y) eqn:Hpy.
    - destruct (lt_eq_lt_dec (b + 1) c) as [[Hlt|]|Hlt]; [|done|].
      + destruct (lookup_lt_is_Some_2 xs (b + 1)) as [x Hx]; [lia|]. pose proof (H1 _ _ Hlt Hx) as E1.
        pose proof (HR (b + 1) x ltac:(lia) Hx) as E2. unfold f in E2. by rewrite E1 in E2.
      + rewrite (H2 b y) in Hpy; [done|lia|done].
    - destruct (lt_eq_lt_dec b c) as [[Hlt|]|Hlt]; [|done|].
      + by rewrite (H1 b y) in Hpy.
      + destruct (lookup_lt_is_Some_2 xs c) as [x Hx]; [lia|]. pose proof (H2 c _ ltac:(lia) Hx) as E1.
        pose proof (HL c x Hlt Hx) as E2. unfold f in E2. by rewrite E1 in E2.
  Qed.
  Lemma new_bs_documented : documented_bs (n := n) bs_1_82.
  Proof.
    intros xs k Hs. unfold bs_1_82, binary_search_by_1_82. destruct xs as [|x0 xs0]; [apply not_elem_of_nil|].
    set (xs := x0 :: xs0) in *. set (f := λ x, arr_cmp x k).
    assert (∀ i j x y, i < j → xs !! i = Some x → xs !! j = Some y → (f x = Gt → f y = Gt) ∧ (f y = Lt → f x = Lt)) as Hm.
    { intros i j x y Hij Hx Hy. unfold f.
      pose proof (StronglySorted_lookup arr_le xs i j x y Hs Hx Hy Hij) as Hle.
      apply arr_le_iff in Hle as [Hlt| ->]; [|done]. split.
      - rewrite (arr_cmp_opp k x), (arr_cmp_opp k y). intros Hg. destruct (arr_cmp k x) eqn:Hkx; try done.
        by rewrite (klt_trans k x y Hkx Hlt).
      - intros Hyk. apply (klt_trans x y k Hlt Hyk). }
    destruct (search_1_82_spec f xs (length xs) 0 (length xs)) as (Hb & HL & HR & H0); try (cbn; lia).
    { intros i j x y Hij Hx Hy. by apply (Hm i j x y Hij Hx Hy). }
    { intros i x Hi Hx. apply lookup_lt_Some in Hx. lia. }
    set (b := search_1_82 f xs (length xs) 0 (length xs)) in *.
    destruct (lookup_lt_is_Some_2 xs b Hb) as [y Hy]. rewrite Hy. cbn [fmap option_fmap option_map].
    assert (f k = Eq) as Hk. { apply arr_cmp_refl. }
    destruct (f y) eqn:Hfy.
    - rewrite Hy. f_equal. unfold f in Hfy. by apply arr_cmp_eq.
    - intros [i Hi]%elem_of_list_lookup. destruct (lt_eq_lt_dec i b) as [[Hlt| ->]|Hlt].
      + destruct (Hm i b k y Hlt Hi Hy) as [_ E]. by rewrite (E Hfy) in Hk.
      + rewrite Hi in Hy. injection Hy as <-. congruence.
      + by rewrite (HR i k Hlt Hi) in Hk.
    - intros [i Hi]%elem_of_list_lookup. destruct (lt_eq_lt_dec i b) as [[Hlt| ->]|Hlt].
      + destruct H0 as [->|H0]; [lia|]. by destruct (H0 y Hy).
      + rewrite Hi in Hy. injection Hy as <-. congruence.
      + by rewrite (HR i k Hlt Hi) in Hk.
  Qed.
End Documented.

(** ** Where the documentation suffices
    [alike m S P p q]: the two programs do the same, as long as they are given the nodes of [m]
    and only strings of [S] are hashed; they do not change the nodes of [m], and return values with [P]. *)
Section Alike.
  Context {n : nat} (H : list bytes → arr n) (S : list bytes → Prop) (m : db n).
  Fixpoint alike {A} (P : A → Prop) (p q : prog n A) : Prop :=
    match p with
    | Ret a => q = Ret a ∧ P a
    | Throw e => q = Throw e
    | Panic => q = Panic
    | Fuel => q = Fuel
    | Hash cs k => ∃ k', q = Hash cs k' ∧ (S cs → alike P (k (H cs)) (k' (H cs)))
    | Get l k => ∃ k', q = Get l k' ∧
        ∀ o, (∀ v, has m l v → ∃ nd, o = Some nd ∧ var nd = v) → alike P (k o) (k' o)
    | Put l nd k => ∃ k', q = Put l nd k' ∧ (∀ v, has m l v → var nd = v) ∧ alike P k k'
    | Del _ _ | Flush _ => False
    end.
  Lemma alike_bind {A C} (P : A → Prop) (P' : C → Prop) (p q : prog n A) (f g : A → prog n C) :
    alike P p q → (∀ a, P a → alike P' (f a) (g a)) → alike P' (p ≫= f) (q ≫= g).
  Proof.
    intros Hp Hf. unfold mbind, prog_bind. revert q Hp.
    induction p as [a|e| | |cs k IH|l k IH|l nd k IH|l k IH|k IH]; intros q Hp; simpl in *; try done; try by subst.
    - destruct Hp as [-> Ha]. by apply Hf.
    - destruct Hp as (k' & -> & Hp). eexists. split; [done|]. intros h. by apply IH, Hp.
    - destruct Hp as (k' & -> & Hp). eexists. split; [done|]. intros o Ho. by apply IH, Hp.
    - destruct Hp as (k' & -> & Hv & Hp). eexists. split_and!; [done|done|]. by apply IH.
  Qed.
  Lemma alike_lift {A} (r : res A) : alike (λ a, r = Ok a) (lift r) (lift r).
  Proof. by destruct r; cbn. Qed.
  Lemma alike_mono {A} (P Q : A → Prop) (p q : prog n A) : alike P p q → (∀ a, P a → Q a) → alike Q p q.
  Proof.
    intros Hp Hf. revert q Hp.
    induction p as [a|e| | |cs k IH|l k IH|l nd k IH|l k IH|k IH]; intros q Hp; simpl in *; try done; naive_solver.
  Qed.

  Context (B : backend n) {HB : BackendOk B}.
  Definition hold (s : b_st B) : Prop := cle m (b_vis B s) ∧ cle m (bview s).
  Lemma hold_put s l nd : hold s → (∀ v, has m l v → var nd = v) → hold (b_put B s l nd).
  Proof using HB.
    intros [H1 H2] Hv. assert (cle m (bview (b_put B s l nd))) as H2'.
    { intros x v Hx. rewrite bview_put. unfold has. destruct (decide (x = l)) as [->|].
      - rewrite lookup_insert. cbn. by rewrite (Hv v Hx).
      - rewrite lookup_insert_ne by done. by apply H2. }
    split; [|done]. destruct (bvis_put s l nd) as [-> | ->]; done.
  Qed.
  Lemma alike_run {A} (P : A → Prop) (p q : prog n A) s : alike P p q → hold s → (∀ x, x ∈ hlog B H p s → S x) →
    run B H q s = run B H p s ∧ (∀ a, out B H p s = ROk a → P a) ∧ hold (fin B H p s).
  Proof using HB.
    unfold out, fin, hlog. revert q s.
    induction p as [a|e| | |cs k IH|l k IH|l nd k IH|l k IH|k IH]; intros q s Hp Hh Hl; simpl in Hp; cbn [run] in *; try done; try by subst.
    - destruct Hp as [-> Ha]. cbn. split_and!; [done| |done]. by intros a' [= <-].
    - destruct Hp as (k' & -> & Hp). cbn [run]. specialize (IH (H cs) (k' (H cs)) s).
      destruct (run B H (k (H cs)) s) as [[o1 t1] l1]. cbn in *.
      destruct IH as (-> & Ha & Hf); [apply Hp, Hl; by left|done|intros x Hx; apply Hl; by right|]. by split_and!.
    - destruct Hp as (k' & -> & Hp). cbn [run]. apply IH; [|done|done]. apply Hp. intros v Hv.
      destruct Hh as [Hh _]. apply Hh in Hv. apply has_lookup in Hv as [rf ->]. eauto.
    - destruct Hp as (k' & -> & Hv & Hp). cbn [run]. apply IH; [done|by apply hold_put|done].
  Qed.
End Alike.

Section Agree.
  Context {n : nat} (Hn : 0 < n) (pp : (arr n → bool) → list (arr n) → nat) (bs : list (arr n) → arr n → option nat).
  Context (Hpp : documented_pp pp) (Hbs : documented_bs bs).
  Lemma split_with_same (ks : list (arr n)) s : s < 8 * n → ksorted ks → (∀ a b, a ∈ ks → b ∈ ks → s ≤ klcp a b) →
    split_pairs_with pp ks s = split_pairs ks s.
  Proof using Hn Hpp.
    intros Hs Hsorted Hag. unfold split_pairs_with, split_pairs.
    destruct (head ks); [|done]. destruct (last ks); [|done].
    rewrite !choose_zero_ok by done. cbn [mbind res_bind]. destruct (negb _); [done|]. destruct (negb _); [done|].
    set (p := λ v, match choose_zero v s with Ok b => b | _ => false end).
    assert (∀ k, p k = negb (bit k s)) as Hp. { intros k. unfold p. by rewrite choose_zero_ok. }
    destruct (partition_point_spec p ks) as [H1 H2].
    { intros i j x y Hij Hx Hy Hpy. rewrite Hp in *. apply negb_true_iff in Hpy. apply negb_true_iff.
      destruct (bit x s) eqn:Hbx; [|done]. rewrite (sorted_bit_mono x y s) in Hpy; [done| | |done].
      - by eapply StronglySorted_lookup.
      - apply Hag; by eapply elem_of_list_lookup_2. }
    pose proof (partition_point_le p ks) as Hle.
    rewrite (Hpp p ks (partition_point p ks) Hle H1 H2). destruct (Nat.leb_spec (partition_point p ks) (length ks)); [done|lia].
  Qed.

  Context (H : list bytes → arr n) (S : list bytes → Prop) (m : db n).
  Definition cell_ok (M : arr n → Prop) (ks0 : list (arr n)) (c : cell (n := n)) : Prop :=
    ∃ t, cloc c = troot H t ∧ var (cnode c) = tvar H t ∧ stored H m t ∧ clean M ks0 t (ckeys c) ∧ ckeys c ≠ [].
  Definition part_ok M ks0 (x : tref n + cell (n := n)) : Prop := match x with inl _ => True | inr c => cell_ok M ks0 c end.
  Lemma has_fun l v w : has m l v → has m l w → v = w.
  Proof. unfold has. intros H1 H2. rewrite H1 in H2. by injection H2. Qed.
  Lemma alike_split M ks0 d t ks : stored H m t → clean M ks0 t ks →
    alike H S m (part_ok M ks0) (split_nodes d (troot H t) ks) (split_nodes d (troot H t) ks).
  Proof.
    intros Hst Hc. pose proof (stored_root _ _ _ Hst) as Hr. unfold split_nodes. cbn. eexists. split; [done|].
    intros o Ho. destruct (Ho _ Hr) as (nd & -> & Hv). destruct ks as [|k ks].
    - assert (∀ v, has m (troot H t) v → tvar H t = v) as Hx by (intros v Hh; by eapply has_fun).
      rewrite Hv. destruct (tvar H t); cbn; [| |done]; eexists; by split_and!.
    - cbn. split; [done|]. exists t. by split_and!.
  Qed.
  Lemma alike_leaf t : stored H m t → alike H S m (λ _, True) (insert_leaf (troot H t)) (insert_leaf (troot H t)).
  Proof.
    intros Hst. pose proof (stored_root _ _ _ Hst) as Hr. unfold insert_leaf. cbn. eexists. split; [done|].
    intros o Ho. destruct (Ho _ Hr) as (nd & -> & Hv). cbn. eexists. split; [done|]. split; [|done].
    intros v Hh. rewrite Hv. by eapply has_fun.
  Qed.
  Lemma push_ok M ks0 x (acc : list (tref n)) q : part_ok M ks0 x → Forall (cell_ok M ks0) q → Forall (cell_ok M ks0) (push_split x acc q).2.
  Proof. destruct x; cbn; [done|]. intros ? ?. by constructor. Qed.

  (** What both loops do at a branch. *)
  Lemma at_branch M ks0 l r ks : clean M ks0 (TNode l r) ks → ks ≠ [] →
    ∃ mi, calc_min_split_index ks (tmin l) = Ok mi ∧
      check_descendants ks (tsplit l r) (tmin l) mi = Ok (node_desc ks (tsplit l r) (tmin l)) ∧
      (tsplit l r ≤ mi → node_desc ks (tsplit l r) (tmin l) = ks) ∧
      split_pairs (node_desc ks (tsplit l r) (tmin l)) (tsplit l r) = Ok (zside l r ks, oside l r ks) ∧
      split_pairs_with pp (node_desc ks (tsplit l r) (tmin l)) (tsplit l r) = Ok (zside l r ks, oside l r ks) ∧
      clean M ks0 l (zside l r ks) ∧ clean M ks0 r (oside l r ks).
  Proof using Hn Hpp.
    intros Hc Hne. destruct (clean_node M ks0 l r ks Hn Hc Hne) as (HD & Hsp & Hcl & Hcr).
    destruct Hc as (_ & Hwf & _ & _ & _ & Hs).
    assert (tsplit l r < 8 * n) as Hlt by (apply tsplit_lt; by destruct Hwf as (_ & _ & ? & _)).
    destruct (node_desc_spec ks (tsplit l r) (tmin l) Hn Hs Hne Hlt) as (mi & H1 & H2 & H3 & _).
    assert (split_pairs (node_desc ks (tsplit l r) (tmin l)) (tsplit l r) = Ok (zside l r ks, oside l r ks)) as Hok.
    { rewrite <- Hsp. by apply node_split_app. }
    exists mi. split_and!; try done. rewrite <- Hok, HD. apply split_with_same; [done|by apply StronglySorted_filter|].
    intros a b [Ha _]%elem_of_list_filter [Hb _]%elem_of_list_filter.
    pose proof (klcp_ultra a (tmin l) b). rewrite (klcp_sym (tmin l) b) in *. lia.
  Qed.
  Lemma alike_traverse M ks0 D fuel (km : gmap (arr n) (arr n)) acc q : Forall (cell_ok M ks0) q →
    alike H S m (λ _, True) (traverse_tree D fuel km acc q) (traverse_tree_with pp D fuel km acc q).
  Proof using Hn Hpp.
    revert acc q. induction fuel as [|fuel IH]; intros acc q Hq.
    { by destruct q. }
    destruct q as [|c q]; [done|]. apply Forall_cons in Hq as [(t & Hl & Hv & Hst & Hc & Hne) Hq].
    cbn [traverse_tree traverse_tree_with]. rewrite Hv, Hl. destruct (D <? cdepth c); [done|].
    destruct t as [k e|l r].
    - cbn [tvar]. destruct (km !! k) as [lc|]; [case_decide|].
      + eapply alike_bind; [by apply alike_leaf|]. intros _ _. by apply IH.
      + by apply IH.
      + eapply alike_bind; [by apply alike_leaf|]. intros _ _. by apply IH.
    - cbn [tvar]. destruct (at_branch M ks0 l r (ckeys c) Hc Hne) as (mi & H1 & H2 & H3 & H4 & H5 & H6 & H7).
      eapply (alike_bind _ _ _ (λ x, x = mi)); [by rewrite H1|]. intros ? ->.
      eapply (alike_bind _ _ _ (λ x, x = node_desc (ckeys c) (tsplit l r) (tmin l))).
      { destruct (Nat.ltb_spec mi (tsplit l r)); [by rewrite H2|]. by rewrite H3. }
      intros ? ->. destruct (_ && _).
      + cbn. eexists. split_and!; [done| |by apply IH]. intros v Hh. cbn.
        pose proof (stored_root _ _ _ Hst) as Hr. cbn in Hr. by eapply has_fun.
      + eapply (alike_bind _ _ _ (λ x, x = (zside l r (ckeys c), oside l r (ckeys c)))); [by rewrite H4, H5|]. intros ? ->.
        cbn [fst snd]. destruct Hst as (_ & Hs1 & Hs2).
        eapply (alike_bind _ _ _ (part_ok M ks0)); [by apply alike_split|]. intros r1 Hr1.
        pose proof (push_ok M ks0 r1 acc q Hr1 Hq) as Hq1. destruct (push_split r1 acc q) as [a1 q1]. cbn in Hq1.
        eapply (alike_bind _ _ _ (part_ok M ks0)); [by apply alike_split|]. intros r0 Hr0.
        pose proof (push_ok M ks0 r0 a1 q1 Hr0 Hq1) as Hq0. destruct (push_split r0 a1 q1) as [a0 q0]. cbn in Hq0.
        by apply IH.
  Qed.
  Lemma alike_get {V} (dec : bytes → res V) M ks0 D fuel keys (lm : gmap (arr n) (option V)) q :
    ksorted keys → Forall (cell_ok M ks0) q →
    alike H S m (λ _, True) (get_loop dec D fuel keys lm q) (get_loop_with pp bs dec D fuel keys lm q).
  Proof using Hn Hpp Hbs.
    intros Hks. revert lm q. induction fuel as [|fuel IH]; intros lm q Hq.
    { by destruct q. }
    destruct q as [|c q]; [done|]. apply Forall_cons in Hq as [(t & Hl & Hv & Hst & Hc & Hne) Hq].
    cbn [get_loop get_loop_with]. rewrite Hv. destruct (D <? cdepth c); [done|].
    assert (∀ q d t' ks, stored H m t' → clean M ks0 t' ks → Forall (cell_ok M ks0) q →
      alike H S m (Forall (cell_ok M ks0)) (push_cell_if_node q d (troot H t') ks) (push_cell_if_node q d (troot H t') ks)) as Hpush.
    { intros q' d t' ks Hst' Hc' Hq'. pose proof (stored_root _ _ _ Hst') as Hr. unfold push_cell_if_node. cbn. eexists. split; [done|].
      intros o Ho. destruct (Ho _ Hr) as (nd & -> & Hv'). destruct ks as [|k ks]; cbn; (split; [done|]); [done|].
      constructor; [|done]. exists t'. by split_and!. }
    destruct t as [k e|l r]; cbn [tvar].
    - cbn. eexists. split; [done|]. intros o Ho. destruct o as [nd|]; [|done]. destruct (var nd); [done|done|].
      eapply alike_bind; [apply alike_lift|]. intros v _.
      pose proof (Hbs keys k Hks) as Hb. pose proof (binary_search_spec keys k Hks) as Hb'.
      destruct (bs keys k) as [i|], (binary_search keys k) as [j|].
      + unfold index. rewrite Hb, Hb'. cbn. by apply IH.
      + destruct Hb'. by eapply elem_of_list_lookup_2.
      + destruct Hb. by eapply elem_of_list_lookup_2.
      + by apply IH.
    - destruct (at_branch M ks0 l r (ckeys c) Hc Hne) as (mi & H1 & H2 & H3 & H4 & H5 & H6 & H7).
      eapply (alike_bind _ _ _ (λ x, x = mi)); [by rewrite H1|]. intros ? ->.
      eapply (alike_bind _ _ _ (λ x, x = node_desc (ckeys c) (tsplit l r) (tmin l))); [by rewrite H2|]. intros ? ->.
      destruct (node_desc (ckeys c) (tsplit l r) (tmin l)) as [|d ds]; [by apply IH|].
      eapply (alike_bind _ _ _ (λ x, x = (zside l r (ckeys c), oside l r (ckeys c)))); [by rewrite H4, H5|]. intros ? ->.
      cbn [fst snd]. destruct Hst as (_ & Hs1 & Hs2).
      eapply (alike_bind _ _ _ (Forall (cell_ok M ks0))); [by apply Hpush|]. intros q1 Hq1.
      eapply (alike_bind _ _ _ (Forall (cell_ok M ks0))); [by apply Hpush|]. intros q0 Hq0. by apply IH.
  Qed.
  Lemma alike_leaves {V} (enc : V → res bytes) (vm : gmap (arr n) V) ks : inj_on H S → proper H S m →
    alike H S m (λ _, True) (insert_leaves enc vm ks) (insert_leaves enc vm ks).
  Proof.
    intros Hinj Hp. pose proof (proper_keeps H S Hinj) as Hk.
    assert (∀ o nd, opre_ok H S o → var nd = ovar H o → ∀ v, has m (oloc H o) v → var nd = v) as Hput.
    { intros o nd Ho Hv v Hh. pose proof (keeps_cle _ _ _ _ Hk m o nd Hp Ho Hv _ _ Hh) as Hc.
      unfold has in Hc. rewrite lookup_insert in Hc. by injection Hc. }
    induction ks as [|k ks IH]; [done|]. cbn [insert_leaves].
    eapply (alike_bind _ _ _ (λ _, True)).
    - unfold insert_leaves_one. destruct (vm !! k) as [v|]; [|done].
      eapply alike_bind; [apply alike_lift|]. intros e _. cbn. eexists. split; [done|]. intros Hd.
      eexists. split; [done|]. intros Hlf. eexists. split; [done|]. intros od _. eexists. split; [done|]. intros ol _.
      eexists. split; [done|]. split.
      { apply (Hput (OD k e) (Node 0 (VData e))); [by repeat constructor|done]. }
      eexists. split; [done|]. split; [|done]. apply (Hput (OT (TLeaf k e)) (Node 0 (VLeaf k (dloc H k e)))); [by repeat constructor|done].
    - intros lc _. eapply (alike_bind _ _ _ (λ _, True)); [exact IH|]. intros ls _. done.
  Qed.
End Agree.

(** ** Results that do not depend on the release *)
Section Results.
  Context {n : nat} (Hn : 0 < n) (pp : (arr n → bool) → list (arr n) → nat) (bs : list (arr n) → arr n → option nat).
  Context (Hpp : documented_pp pp) (Hbs : documented_bs bs).
  Context (B : backend n) {HB : BackendOk B} (H : list bytes → arr n).
  Context {V : Type} (enc : V → res bytes) (dec : bytes → res V) (Hcodec : codec_ok enc dec).
  Implicit Types (st : b_st B) (lg L : list (list bytes)) (k r : arr n) (ks : list (arr n)) (vs : list V) (M : gmap (arr n) V).
  Notation Sof L := (λ x, x ∈ L).

  Lemma insert_with_none D ks vs : insert_with pp enc D None ks vs = insert enc D None ks vs.
  Proof using. reflexivity. Qed.

  (** A live tree is visible, and stays so when the queue is written. *)
  Lemma live_both st lg r M : live B H enc dec st lg r M → no_collision H lg →
    ∃ t, r = troot H t ∧ twf t ∧ stored H (b_vis B st) t ∧ stored H (bview st) t ∧ Forall (Sof lg) (tpre H t) ∧ encs enc M (tmap t) ∧
      cle (b_vis B st) (bview st).
  Proof using Hn HB Hcodec.
    intros Hl Hc. destruct (live_handle Hn B H enc dec Hcodec st lg r M Hl Hc) as (t & Hr & Hwf & Hst & Hpre & He).
    cbn [fst snd] in *. assert (cle (b_vis B st) (bview st)) as Hcle; [|exists t; split_and!; try done; by eapply stored_mono].
    destruct Hl as (hs & [Hh|Hh] & Hin).
    - destruct (hist_hinv Hn B H enc dec Hcodec st lg hs lg Hh Hc ltac:(done)) as [(_ & _ & ? & _) _]. done.
    - destruct (whist_inv Hn B H enc dec Hcodec lg st lg hs Hc Hh ltac:(done)) as (hts & D & Hi).
      by destruct (winv_counted _ _ _ _ _ _ _ _ Hi) as (_ & _ & _ & _ & ?).
  Qed.
  Theorem insert_with_same st lg r M D ks vs : live B H enc dec st lg r M →
    no_collision H (lg ++ hlog B H (insert enc D (Some r) ks vs) st) → benign M ks →
    run B H (insert_with pp enc D (Some r) ks vs) st = run B H (insert enc D (Some r) ks vs) st.
  Proof using Hn Hpp HB Hcodec.
    intros Hl Hc Hb. set (L := lg ++ _) in *.
    assert (no_collision H lg) as Hc0. { intros x y Hx Hy. apply Hc; apply elem_of_app; by left. }
    destruct (live_both st lg r M Hl Hc0) as (t & -> & Hwf & Hs1 & Hs2 & Hpre & He & _).
    assert (Forall (Sof L) (tpre H t)) as HpreL.
    { eapply Forall_impl; [exact Hpre|]. intros x Hx. apply elem_of_app. by left. }
    destruct (plant_stored H (Sof L) Hc t ∅ (proper_empty _ _) (twf_tpwf t Hwf) HpreL) as (_ & Hp & Hst).
    set (m := plant H t ∅) in *.
    assert (hold m B st) as Hh. { split; apply plant_least; (by intros l v) || done. }
    assert (∀ x, x ∈ hlog B H (insert enc D (Some (troot H t)) ks vs) st → x ∈ L) as HL.
    { intros x Hx. apply elem_of_app. by right. }
    unfold insert_with, insert in *. destruct (negb _); [done|]. destruct (length ks =? 0) eqn:Hlen; [done|]. cbn [orb] in *.
    destruct (length vs =? 0); [done|]. unfold insert_sorted_with, insert_sorted in *.
    assert (sort_keys ks ≠ []) as Hne. { intros E. apply (f_equal length) in E. rewrite sort_keys_length in E. cbn in E. by rewrite E in Hlen. }
    set (vm := value_map_of ks vs) in *. set (sk := sort_keys ks) in *.
    unfold hlog in HL. rewrite run_bind in HL.
    destruct (alike_run H (Sof L) m B (λ _, True) (insert_leaves enc vm sk) (insert_leaves enc vm sk) st) as (_ & _ & Hh1).
    { by apply alike_leaves. }
    { done. }
    { intros x Hx. apply HL. unfold hlog in Hx. destruct (run B H (insert_leaves enc vm sk) st) as [[[| | |] s1] l1]; cbn in *; try done.
      destruct (run B H _ s1) as [[? ?] ?]. apply elem_of_app. by left. }
    rewrite !(run_bind B H (insert_leaves enc vm sk)). unfold fin in Hh1.
    destruct (run B H (insert_leaves enc vm sk) st) as [[[ls| | |] s1] l1]; try done. cbn [fst snd] in Hh1.
    rewrite !run_bind. rewrite run_bind in HL.
    destruct (alike_run H (Sof L) m B (λ _, True)
      (generate_treerefs D (troot H t) sk (key_map_of sk ls)) (generate_treerefs_with pp D (troot H t) sk (key_map_of sk ls)) s1) as (-> & _); [|done| |done].
    - unfold generate_treerefs, generate_treerefs_with. cbn. eexists. split; [done|]. intros o Ho.
      destruct (Ho _ (stored_root _ _ _ Hst)) as (nd & -> & Hv).
      apply (alike_traverse Hn pp Hpp H (Sof L) m (λ k, k ∈ tkeys t) sk). constructor; [|constructor].
      exists t. split_and!; try done. apply clean_old; [done|apply sort_keys_sorted|].
      apply benign_sort. by apply (encs_benign enc M (tmap t) ks He).
    - intros x Hx. apply HL. unfold hlog in Hx.
      destruct (run B H (generate_treerefs D (troot H t) sk (key_map_of sk ls)) s1) as [[[| | |] s2] l2]; cbn in *;
        [|apply elem_of_app; by right..].
      destruct (run B H _ s2) as [[? ?] ?]. cbn. rewrite !elem_of_app. auto.
  Qed.
  Theorem get_with_same st lg r M D ks : live B H enc dec st lg r M → no_collision H lg → benign M ks →
    run B H (get_with pp bs dec D r ks) st = run B H (get dec D r ks) st.
  Proof using Hn Hpp Hbs HB Hcodec.
    intros Hl Hc Hb. destruct (live_both st lg r M Hl Hc) as (t & -> & Hwf & Hs1 & Hs2 & Hpre & He & Hcle).
    unfold get_with, get. destruct ks as [|k0 ks0]; [done|]. set (ks := k0 :: ks0) in *.
    assert (sort_keys ks ≠ []) as Hne. { intros E. apply (f_equal length) in E. by rewrite sort_keys_length in E. }
    cbn [get_node mbind prog_bind pbind run]. destruct (b_vis B st !! troot H t) as [nd|] eqn:Hnd; [|done].
    pose proof (stored_root _ _ _ Hs1) as Hr. unfold has in Hr. rewrite Hnd in Hr. injection Hr as Hv.
    apply (alike_run H (λ _, True) (b_vis B st) B (λ _, True)); [|split; [apply cle_refl|done]|done].
    apply (alike_get Hn pp bs Hpp Hbs H (λ _, True) (b_vis B st) dec (λ k, k ∈ tkeys t) (sort_keys ks)); [apply sort_keys_sorted|].
    constructor; [|constructor]. exists t. split_and!; try done. apply clean_old; [done|apply sort_keys_sorted|].
    apply benign_sort. by apply (encs_benign enc M (tmap t) ks He).
  Qed.
End Results.

(** ** Up to three keys, in any database
    A slice that reaches [partition_point] begins with a zero and ends with a one. *)
Section Short.
  Context {n : nat} (pp : (arr n → bool) → list (arr n) → nat) (bs : list (arr n) → arr n → option nat).
  Context (Hpp : documented_pp pp) (Hbs : documented_bs bs).
  Lemma split_with_short (ks : list (arr n)) s : length ks ≤ 3 → split_pairs_with pp ks s = split_pairs ks s.
  Proof using Hpp.
    intros Hl. unfold split_pairs_with, split_pairs.
    destruct (head ks) as [a|] eqn:Ha; [|done]. destruct (last ks) as [b|] eqn:Hb; [|done].
    destruct (choose_zero b s) as [zl| |] eqn:Hzb; [|done|done]. cbn [mbind res_bind]. destruct zl; [done|].
    destruct (choose_zero a s) as [zf| |] eqn:Hza; [|done|done]. cbn [mbind res_bind]. destruct zf; [|done]. cbn [negb].
    set (p := λ v, match choose_zero v s with Ok b => b | _ => false end).
    assert (p a = true) as Hpa by (unfold p; by rewrite Hza). assert (p b = false) as Hpb by (unfold p; by rewrite Hzb).
    assert (∃ c, c ≤ length ks ∧ pp p ks = c ∧ partition_point p ks = c) as (c & Hc & -> & ->).
    { assert (∃ c, c ≤ length ks ∧ (∀ i x, i < c → ks !! i = Some x → p x = true) ∧ (∀ i x, c ≤ i → ks !! i = Some x → p x = false)) as (c & Hc & H1 & H2).
      { destruct ks as [|x [|y [|z [|w ks]]]]; cbn in *; try lia; try done.
        - injection Ha as ->. injection Hb as ->. congruence.
        - injection Ha as ->. injection Hb as ->. exists 1. split_and!; [lia| |].
          + intros [|i] x Hi; [|lia]. by intros [= <-].
          + intros [|[|i]] x Hi; [lia| |done]. by intros [= <-].
        - injection Ha as ->. injection Hb as ->. destruct (p y) eqn:Hy; [exists 2|exists 1]; (split_and!; [lia| |]).
          + intros [|[|i]] x Hi; [by intros [= <-]|by intros [= <-]|lia].
          + intros [|[|[|i]]] x Hi; [lia|lia|by intros [= <-]|done].
          + intros [|i] x Hi; [|lia]. by intros [= <-].
          + intros [|[|[|i]]] x Hi; [lia|by intros [= <-]|by intros [= <-]|done]. }
      exists c. split_and!; [done|by apply Hpp|by apply old_pp_documented]. }
    destruct (Nat.leb_spec c (length ks)); [done|lia].
  Qed.

  Context (H : list bytes → arr n).
  Notation same P p q := (alike H (λ _, True) ∅ P p q).
  Definition short (c : cell (n := n)) : Prop := length (ckeys c) ≤ 3.
  Definition short_part (x : tref n + cell (n := n)) : Prop := match x with inl _ => True | inr c => short c end.
  Lemma none_has (l : arr n) v (P : Prop) : has (∅ : db n) l v → P.
  Proof. unfold has. by rewrite lookup_empty. Qed.
  Lemma short_split d (b : arr n) ks : length ks ≤ 3 → same short_part (split_nodes d b ks) (split_nodes d b ks).
  Proof.
    intros Hl. unfold split_nodes. cbn. eexists. split; [done|]. intros [nd|] _; [|done]. destruct ks as [|k ks]; [|done].
    destruct (var nd); cbn; [| |done]; eexists; (split; [done|]); (split; [|done]); intros v Hv; by eapply none_has.
  Qed.
  Lemma short_leaf (l : arr n) : same (λ _, True) (insert_leaf l) (insert_leaf l).
  Proof.
    unfold insert_leaf. cbn. eexists. split; [done|]. intros [nd|] _; [|done]. cbn. eexists. split; [done|]. split; [|done].
    intros v Hv. by eapply none_has.
  Qed.
  Lemma short_push x (acc : list (tref n)) q : short_part x → Forall short q → Forall short (push_split x acc q).2.
  Proof. destruct x; cbn; [done|]. intros ? ?. by constructor. Qed.
  Lemma short_zo (ds : list (arr n)) si z o : split_pairs ds si = Ok (z, o) → length ds ≤ 3 → length z ≤ 3 ∧ length o ≤ 3.
  Proof. intros Hs Hl. apply split_pairs_app in Hs. subst ds. rewrite app_length in Hl. lia. Qed.
  Lemma short_traverse D fuel (km : gmap (arr n) (arr n)) acc q : Forall short q →
    same (λ _, True) (traverse_tree D fuel km acc q) (traverse_tree_with pp D fuel km acc q).
  Proof using Hpp.
    revert acc q. induction fuel as [|fuel IH]; intros acc q Hq.
    { by destruct q. }
    destruct q as [|c q]; [done|]. apply Forall_cons in Hq as [Hc Hq].
    cbn [traverse_tree traverse_tree_with]. destruct (D <? cdepth c); [done|].
    destruct (var (cnode c)) as [count zero one si bk|lk ld|e]; [| |done].
    - eapply alike_bind; [apply alike_lift|]. intros mi _.
      eapply (alike_bind _ _ _ (λ ds, length ds ≤ 3)).
      { destruct (mi <? si); [|done]. eapply alike_mono; [apply alike_lift|]. intros ds Hds.
        apply check_descendants_length in Hds. unfold short in Hc. lia. }
      intros ds Hds. destruct (_ && _).
      + cbn. eexists. split; [done|]. split; [|by apply IH]. intros v Hv. by eapply none_has.
      + rewrite split_with_short by done. eapply alike_bind; [apply alike_lift|]. intros [z o] Hzo. cbn [fst snd].
        destruct (short_zo ds si z o Hzo Hds) as [Hz Ho].
        eapply (alike_bind _ _ _ short_part); [by apply short_split|]. intros r1 Hr1.
        pose proof (short_push r1 acc q Hr1 Hq) as Hq1. destruct (push_split r1 acc q) as [a1 q1]. cbn in Hq1.
        eapply (alike_bind _ _ _ short_part); [by apply short_split|]. intros r0 Hr0.
        pose proof (short_push r0 a1 q1 Hr0 Hq1) as Hq0. destruct (push_split r0 a1 q1) as [a0 q0]. cbn in Hq0.
        by apply IH.
    - destruct (km !! lk) as [lc|]; [case_decide|].
      + eapply alike_bind; [by apply short_leaf|]. intros _ _. by apply IH.
      + by apply IH.
      + eapply alike_bind; [by apply short_leaf|]. intros _ _. by apply IH.
  Qed.
  Lemma short_get {V} (dec : bytes → res V) D fuel keys (lm : gmap (arr n) (option V)) q : ksorted keys → Forall short q →
    same (λ _, True) (get_loop dec D fuel keys lm q) (get_loop_with pp bs dec D fuel keys lm q).
  Proof using Hpp Hbs.
    intros Hks. revert lm q. induction fuel as [|fuel IH]; intros lm q Hq.
    { by destruct q. }
    destruct q as [|c q]; [done|]. apply Forall_cons in Hq as [Hc Hq].
    cbn [get_loop get_loop_with]. destruct (D <? cdepth c); [done|].
    assert (∀ q d l (ks : list (arr n)), length ks ≤ 3 → Forall short q →
      same (Forall short) (push_cell_if_node q d l ks) (push_cell_if_node q d l ks)) as Hpush.
    { intros q' d l ks Hl Hq'. unfold push_cell_if_node. cbn. eexists. split; [done|].
      intros [nd|] _; [|done]. destruct ks as [|k ks]; cbn; (split; [done|]); [done|]. by constructor. }
    destruct (var (cnode c)) as [count zero one si bk|lk ld|e]; [| |done].
    - eapply alike_bind; [apply alike_lift|]. intros mi _.
      eapply (alike_bind _ _ _ (λ ds, length ds ≤ 3)).
      { eapply alike_mono; [apply alike_lift|]. intros ds Hds. apply check_descendants_length in Hds. unfold short in Hc. lia. }
      intros [|d ds] Hds; [by apply IH|].
      rewrite split_with_short by done. eapply alike_bind; [apply alike_lift|]. intros [z o] Hzo. cbn [fst snd].
      destruct (short_zo _ si z o Hzo Hds) as [Hz Ho].
      eapply (alike_bind _ _ _ (Forall short)); [by apply Hpush|]. intros q1 Hq1.
      eapply (alike_bind _ _ _ (Forall short)); [by apply Hpush|]. intros q0 Hq0. by apply IH.
    - cbn. eexists. split; [done|]. intros o _. destruct o as [nd|]; [|done]. destruct (var nd); [done|done|].
      eapply alike_bind; [apply alike_lift|]. intros v _.
      pose proof (Hbs keys lk Hks) as Hb. pose proof (binary_search_spec keys lk Hks) as Hb'.
      destruct (bs keys lk) as [i|], (binary_search keys lk) as [j|].
      + unfold index. rewrite Hb, Hb'. cbn. by apply IH.
      + destruct Hb'. by eapply elem_of_list_lookup_2.
      + destruct Hb. by eapply elem_of_list_lookup_2.
      + by apply IH.
  Qed.

  Context (B : backend n) {HB : BackendOk B} {V : Type} (enc : V → res bytes) (dec : bytes → res V).
  Lemma empty_hold (s : b_st B) : hold ∅ B s.
  Proof using. split; intros l v Hv; by eapply none_has. Qed.
  Theorem insert_with_short D prev (ks : list (arr n)) vs st : length ks ≤ 3 →
    run B H (insert_with pp enc D prev ks vs) st = run B H (insert enc D prev ks vs) st.
  Proof using Hpp HB.
    intros Hl. unfold insert_with, insert. destruct (negb _); [done|]. destruct (_ || _); [done|].
    unfold insert_sorted_with, insert_sorted. rewrite !(run_bind B H (insert_leaves _ _ _)).
    destruct (run B H (insert_leaves enc (value_map_of ks vs) (sort_keys ks)) st) as [[[ls| | |] s1] l1]; try done.
    destruct prev as [r|]; [|done]. rewrite !run_bind.
    set (sk := sort_keys ks). assert (length sk ≤ 3) as Hsk by (unfold sk; by rewrite sort_keys_length).
    destruct (alike_run H (λ _, True) ∅ B (λ _, True)
      (generate_treerefs D r sk (key_map_of sk ls)) (generate_treerefs_with pp D r sk (key_map_of sk ls)) s1) as (-> & _); [|apply empty_hold|done|done].
    unfold generate_treerefs, generate_treerefs_with. cbn. eexists. split; [done|]. intros [nd|] _; [|done].
    apply short_traverse. constructor; [exact Hsk|constructor].
  Qed.
  Theorem get_with_short D r (ks : list (arr n)) st : length ks ≤ 3 →
    run B H (get_with pp bs dec D r ks) st = run B H (get dec D r ks) st.
  Proof using Hpp Hbs HB.
    intros Hl. unfold get_with, get. destruct ks as [|k0 ks0]; [done|]. set (ks := k0 :: ks0) in *.
    cbn [get_node mbind prog_bind pbind run]. destruct (b_vis B st !! r) as [nd|]; [|done].
    apply (alike_run H (λ _, True) ∅ B (λ _, True)); [|apply empty_hold|done].
    apply short_get; [apply sort_keys_sorted|]. constructor; [|constructor]. unfold short. cbn [ckeys]. by rewrite sort_keys_length.
  Qed.
End Short.
