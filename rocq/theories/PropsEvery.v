(** * Insertions into every live root
    Statements only; see PropsHist.v for the conventions.  [live] (Spec.v): the root is live after some history of
    insertions, removals, failed and interrupted calls; [serves] (Spec.v): reads, requests and proofs are those of the map.
    Unlike in PropsWeak.v, the batch may create branches of trees that were live before.  Both backends are
    [lazy_or_eager] (Moved.v).  The databases of the examples are those of Scenario3.v: [w5] after a failed insertion, an
    interrupted insertion and an interrupted removal of [r1], where only [r2] is live; [w6] after one more insertion. *)
From Coq Require Import Strings.Byte NArith.
From stdpp Require Import prelude countable gmap sorting strings.
From Verif Require Import Model Bits Spec Logic Safe Depth Claims Live Regrow Weak Usage Shape Moved Struct Codec Bytes Machine Counts MachineProofs Deploy Every Scenario Refuted Scenario3 Scenario6 Scenario8 Scenario12.

Local Open Scope nat_scope.

(** C02: one pair.  The contents are updated, all live roots keep theirs, and the root is that of any tree of the same
    contents. *)
Theorem C02_live :
  ∀ (n : nat) (B : backend n) {HB : BackendOk B} (H : list bytes → arr n) (V : Type)
    (enc : V → res bytes) (dec : bytes → res V), 0 < n → codec_ok enc dec → lazy_or_eager B →
  ∀ st lg D r M k v, live B H enc dec st lg r M →
  no_collision H (lg ++ hlog B H (insert_one enc D (Some r) k v) st) → (∃ e, enc v = Ok e) → 8 * n ≤ D →
  ∃ r', out B H (insert_one enc D (Some r) k v) st = ROk r' ∧
    serves B H enc dec (fin B H (insert_one enc D (Some r) k v) st) r' (<[k := v]> M) ∧
    (∀ r0 M0, live B H enc dec st lg r0 M0 → serves B H enc dec (fin B H (insert_one enc D (Some r) k v) st) r0 M0) ∧
    (∀ (B2 : backend n) (HB2 : BackendOk B2) (st2 : b_st B2) lg2 r2, live B2 H enc dec st2 lg2 r2 (<[k := v]> M) →
       no_collision H lg2 → r' = r2).
Proof. intros n B HB H V enc dec Hn Hc Hl. exact (every_one Hn B H enc dec Hc Hl). Qed.
Print Assumptions C02_live.
(** The pair of [r6] is inserted into [r2] again: [r6] is returned. *)
Example C02_live_case : ∃ r', out RB toy (insert_one idc 16 (Some (r2 RB)) K5 v1) (w6 RB) = ROk r' ∧ r' = r6 RB.
Proof.
  destruct (C02_live 2 RB toy _ idc idc ltac:(lia) idc_ok (rocks_lazy 2) (w6 RB) (wlg6 RB) 16 (r2 RB) M2 K5 v1) as (r' & Ho & _ & _ & Hr);
    [exists (whs6 RB); split; [right; exact rocks_scenario3|right; left]|nc|by eexists|lia|].
  exists r'. split; [exact Ho|]. apply (Hr RB _ (w6 RB) (wlg6 RB)); [|nc].
  replace (<[K5 := v1]> M2) with M4 by apply updated_single. exists (whs6 RB). split; [right; exact rocks_scenario3|left].
Qed.

(** C03, C55: batches.  Missing: batches with the hazard of Spec.v, for which it is false ([C03_refuted]). *)
Theorem C03_live_partial :
  ∀ (n : nat) (B : backend n) {HB : BackendOk B} (H : list bytes → arr n) (V : Type)
    (enc : V → res bytes) (dec : bytes → res V), 0 < n → codec_ok enc dec → lazy_or_eager B →
  ∀ st lg D prev M ks vs, match prev with Some r => live B H enc dec st lg r M | None => M = ∅ end →
  no_collision H (lg ++ hlog B H (insert enc D prev ks vs) st) → mild M ks →
  length ks = length vs → ks ≠ [] → NoDup ks → (∀ v, v ∈ vs → ∃ e, enc v = Ok e) → (prev = None ∨ 8 * n ≤ D) →
  ∃ r', out B H (insert enc D prev ks vs) st = ROk r' ∧
    serves B H enc dec (fin B H (insert enc D prev ks vs) st) r' (list_to_map (zip ks vs) ∪ M) ∧
    (∀ r0 M0, live B H enc dec st lg r0 M0 → serves B H enc dec (fin B H (insert enc D prev ks vs) st) r0 M0) ∧
    (∀ (B2 : backend n) (HB2 : BackendOk B2) (st2 : b_st B2) lg2 r2,
       live B2 H enc dec st2 lg2 r2 (list_to_map (zip ks vs) ∪ M) → no_collision H lg2 → r' = r2).
Proof. intros n B HB H V enc dec Hn Hc Hl. exact (every_insert Hn B H enc dec Hc Hl). Qed.
Print Assumptions C03_live_partial.
Example C03_live_case : ∃ r', out HB toy (insert idc 16 (Some (r2 HB)) [K5; K1; KX] [v1; v4; v5]) (w5 HB) = ROk r' ∧
  serves HB toy idc idc (fin HB toy (insert idc 16 (Some (r2 HB)) [K5; K1; KX] [v1; v4; v5]) (w5 HB)) (r2 HB) M2.
Proof.
  destruct (C03_live_partial 2 HB toy _ idc idc ltac:(lia) idc_ok (hash_eager 2) (w5 HB) (wlg4 HB) 16 (Some (r2 HB)) M2 [K5; K1; KX] [v1; v4; v5])
    as (r' & Ho & _ & Hk & _).
  - exists (whs5 HB). split; [right; exact hash_cut|left].
  - nc.
  - apply hazard_b_mild. vm_compute. reflexivity.
  - done.
  - done.
  - apply (bool_decide_unpack _). vm_compute. exact I.
  - intros v _. by eexists.
  - right. lia.
  - exists r'. split; [exact Ho|]. apply Hk. exists (whs5 HB). split; [right; exact hash_cut|left].
Qed.
(** The removed tree is built again. *)
Example C03_live_again : ∃ r', out HB toy (insert idc 0 None [K2; K1] [v2; v1]) (w5 HB) = ROk r' ∧ r' = r1 HB.
Proof.
  destruct (C03_live_partial 2 HB toy _ idc idc ltac:(lia) idc_ok (hash_eager 2) (w5 HB) (wlg4 HB) 0 None ∅ [K2; K1] [v2; v1])
    as (r' & Ho & _ & _ & Hr).
  - done.
  - nc.
  - apply hazard_b_mild. vm_compute. reflexivity.
  - done.
  - done.
  - apply (bool_decide_unpack _). vm_compute. exact I.
  - intros v _. by eexists.
  - by left.
  - exists r'. split; [exact Ho|]. apply (Hr HB _ (s3 HB) (lg3 HB)); [|nc].
    exists (hs2 HB). split; [right; exact hash_failed|]. right. left.
Qed.

(** C55: a batch with at most one key that is not in the tree, or with at most two keys. *)
Theorem C55_live :
  ∀ (n : nat) (B : backend n) {HB : BackendOk B} (H : list bytes → arr n) (V : Type)
    (enc : V → res bytes) (dec : bytes → res V), 0 < n → codec_ok enc dec → lazy_or_eager B →
  ∀ st lg D r M ks vs, live B H enc dec st lg r M →
  no_collision H (lg ++ hlog B H (insert enc D (Some r) ks vs) st) →
  n = 1 ∨ (∀ x y, x ∈ ks → y ∈ ks → M !! x = None → M !! y = None → x = y) ∨
    (∃ u v, ∀ k, k ∈ ks → k = u ∨ k = v) →
  length ks = length vs → ks ≠ [] → NoDup ks → (∀ v, v ∈ vs → ∃ e, enc v = Ok e) → 8 * n ≤ D →
  ∃ r', out B H (insert enc D (Some r) ks vs) st = ROk r' ∧
    serves B H enc dec (fin B H (insert enc D (Some r) ks vs) st) r' (list_to_map (zip ks vs) ∪ M) ∧
    (∀ r0 M0, live B H enc dec st lg r0 M0 → serves B H enc dec (fin B H (insert enc D (Some r) ks vs) st) r0 M0).
Proof. intros n B HB H V enc dec Hn Hc Hl. exact (every_few Hn B H enc dec Hc Hl). Qed.
Print Assumptions C55_live.
Example C55_live_case : ∃ r', out HB toy (insert idc 16 (Some (r2 HB)) [K5; KX] [v1; v5]) (w5 HB) = ROk r' ∧ _ :=
  C55_live 2 HB toy _ idc idc ltac:(lia) idc_ok (hash_eager 2) (w5 HB) (wlg4 HB) 16 (r2 HB) M2 [K5; KX] [v1; v5]
    (ex_intro _ (whs5 HB) (conj (or_intror hash_cut) (elem_of_list_here _ _))) ltac:(nc) ltac:(right; right; exists K5, KX; intros k Hk; set_solver) eq_refl
    ltac:(discriminate) ltac:(apply (bool_decide_unpack _); vm_compute; exact I) ltac:(intros v _; by eexists) ltac:(lia).

(** C63: a batch of pairs that are in the tree returns the same root. *)
Theorem C63_live :
  ∀ (n : nat) (B : backend n) {HB : BackendOk B} (H : list bytes → arr n) (V : Type)
    (enc : V → res bytes) (dec : bytes → res V), 0 < n → codec_ok enc dec → lazy_or_eager B →
  ∀ st lg D r M ks vs, live B H enc dec st lg r M →
  no_collision H (lg ++ hlog B H (insert enc D (Some r) ks vs) st) →
  length ks = length vs → ks ≠ [] → NoDup ks → (∀ k v, (k, v) ∈ zip ks vs → M !! k = Some v) → 8 * n ≤ D →
  out B H (insert enc D (Some r) ks vs) st = ROk r.
Proof. intros n B HB H V enc dec Hn Hc Hl. exact (every_again Hn B H enc dec Hc Hl). Qed.
Print Assumptions C63_live.
Example C63_live_case : out RB toy (insert idc 16 (Some (r2 RB)) [K4; K1] [v4; v1]) (w5 RB) = ROk (r2 RB).
Proof.
  apply (C63_live 2 RB toy _ idc idc ltac:(lia) idc_ok (rocks_lazy 2) (w5 RB) (wlg4 RB) 16 (r2 RB) M2).
  - exists (whs5 RB). split; [right; exact rocks_cut|left].
  - nc.
  - done.
  - done.
  - apply (bool_decide_unpack _). vm_compute. exact I.
  - intros k v [[= -> ->]|[[= -> ->]|Hin%elem_of_nil]%elem_of_cons]%elem_of_cons; [vm_compute; reflexivity..|done].
  - lia.
Qed.

(** C56: one at a time, with repeated keys. *)
Theorem C56_live :
  ∀ (n : nat) (B : backend n) {HB : BackendOk B} (H : list bytes → arr n) (V : Type)
    (enc : V → res bytes) (dec : bytes → res V), 0 < n → codec_ok enc dec → lazy_or_eager B →
  ∀ st lg D prev M kvs, match prev with Some r => live B H enc dec st lg r M | None => M = ∅ end →
  no_collision H (lg ++ hlog B H (insert_each enc D prev kvs) st) →
  (∀ k v, (k, v) ∈ kvs → ∃ e, enc v = Ok e) → 8 * n ≤ D → kvs ≠ [] →
  ∃ r, out B H (insert_each enc D prev kvs) st = ROk (Some r) ∧
    serves B H enc dec (fin B H (insert_each enc D prev kvs) st) r (foldl (λ m kv, <[kv.1 := kv.2]> m) M kvs) ∧
    (∀ r0 M0, live B H enc dec st lg r0 M0 → serves B H enc dec (fin B H (insert_each enc D prev kvs) st) r0 M0) ∧
    (∀ (B2 : backend n) (HB2 : BackendOk B2) (st2 : b_st B2) lg2 r2,
       live B2 H enc dec st2 lg2 r2 (foldl (λ m kv, <[kv.1 := kv.2]> m) M kvs) → no_collision H lg2 → r = r2).
Proof. intros n B HB H V enc dec Hn Hc Hl. exact (every_each Hn B H enc dec Hc Hl). Qed.
Print Assumptions C56_live.
Example C56_live_case : ∃ r, out HB toy (insert_each idc 16 (Some (r2 HB)) [(K5, v2); (KX, v5); (K5, v1)]) (w5 HB) = ROk (Some r) ∧
  serves HB toy idc idc (fin HB toy (insert_each idc 16 (Some (r2 HB)) [(K5, v2); (KX, v5); (K5, v1)]) (w5 HB)) r (<[KX := v5]> (<[K5 := v1]> M2)).
Proof.
  destruct (C56_live 2 HB toy _ idc idc ltac:(lia) idc_ok (hash_eager 2) (w5 HB) (wlg4 HB) 16 (Some (r2 HB)) M2 [(K5, v2); (KX, v5); (K5, v1)])
    as (r & Ho & Hs & _).
  - exists (whs5 HB). split; [right; exact hash_cut|left].
  - nc.
  - intros k v _. by eexists.
  - lia.
  - done.
  - exists r. split; [exact Ho|]. replace (<[KX := v5]> (<[K5 := v1]> M2)) with (foldl (λ m kv, <[kv.1 := kv.2]> m) M2 [(K5, v2); (KX, v5); (K5, v1)]);
      [exact Hs|]. cbn [foldl fst snd]. rewrite (insert_commute _ K5 KX) by discriminate. by rewrite insert_insert.
Qed.
(** C56: where the batch works (C03), the loop gives the same root. *)
Theorem C56_live_batch :
  ∀ (n : nat) (B : backend n) {HB : BackendOk B} (H : list bytes → arr n) (V : Type)
    (enc : V → res bytes) (dec : bytes → res V), 0 < n → codec_ok enc dec → lazy_or_eager B →
  ∀ st lg D prev M ks vs, match prev with Some r => live B H enc dec st lg r M | None => M = ∅ end → mild M ks →
  no_collision H (lg ++ hlog B H (insert enc D prev ks vs) st ++ hlog B H (insert_each enc D prev (zip ks vs)) st) →
  length ks = length vs → ks ≠ [] → NoDup ks → (∀ v, v ∈ vs → ∃ e, enc v = Ok e) → 8 * n ≤ D →
  ∃ r, out B H (insert enc D prev ks vs) st = ROk r ∧ out B H (insert_each enc D prev (zip ks vs)) st = ROk (Some r).
Proof. intros n B HB H V enc dec Hn Hc Hl. exact (every_batch Hn B H enc dec Hc Hl). Qed.
Print Assumptions C56_live_batch.
Example C56_live_batch_case : ∃ r, out RB toy (insert idc 16 (Some (r2 RB)) [KX; K1; K5] [v5; v4; v1]) (w5 RB) = ROk r ∧
  out RB toy (insert_each idc 16 (Some (r2 RB)) [(KX, v5); (K1, v4); (K5, v1)]) (w5 RB) = ROk (Some r).
Proof.
  apply (C56_live_batch 2 RB toy _ idc idc ltac:(lia) idc_ok (rocks_lazy 2) (w5 RB) (wlg4 RB) 16 (Some (r2 RB)) M2 [KX; K1; K5] [v5; v4; v1]).
  - exists (whs5 RB). split; [right; exact rocks_cut|left].
  - apply hazard_b_mild. vm_compute. reflexivity.
  - nc.
  - done.
  - done.
  - apply (bool_decide_unpack _). vm_compute. exact I.
  - intros v _. by eexists.
  - lia.
Qed.

(** C76: an insertion over the stored bytes, with machine integers; all live roots are read back from the bytes it leaves. *)
Theorem C76_insert_live :
  ∀ (M : build) (n : nat) (H : list bytes → arr n) (V : Type) (enc : V → res bytes) (dec : bytes → res V), 0 < n → codec_ok enc dec →
    fits (wptr M) (8 * n) → (wref M ≤ 64)%N → (wptr M ≤ 64)%N →
  ∀ st lg K W r Mp D ks vs, used (rocks_db n) H enc dec st lg K W → live (rocks_db n) H enc dec st lg r Mp → mild Mp ks →
  length ks = length vs → ks ≠ [] → NoDup ks → (∀ v, v ∈ vs → ∃ e, enc v = Ok e) → 8 * n + 1 ≤ D →
  let p := insert enc D (Some r) ks vs in
  no_collision H (lg ++ hlog (rocks_db n) H p st) → short (lg ++ hlog (rocks_db n) H p st) →
  fits (wptr M) (D + 1) → fits (wptr M) (length ks) → fits (wref M) (1 + K + length ks) →
  fits (wref M) (W + writes (rocks_db n) H p st + 1) → fits (wcnt M) (writes (rocks_db n) H p st) →
  fits (wptr M) (writes (rocks_db n) H p st) →
  ∃ r' z, brun H (m_insert M enc D (Some r) ks vs) (ser st) = (ROk r', z) ∧
    (∀ k, brun H (m_get_one M dec D r' k) z = (ROk ((list_to_map (zip ks vs) ∪ Mp) !! k), z)) ∧
    (∀ r0 M0 k, live (rocks_db n) H enc dec st lg r0 M0 → brun H (m_get_one M dec D r0 k) z = (ROk (M0 !! k), z)).
Proof. intros M n H V enc dec Hn Hc Hb Hr Hp. exact (every_bytes M Hn H enc dec Hb Hr Hp Hc). Qed.
Print Assumptions C76_insert_live.
Example C76_insert_live_case w : ∃ r' z, brun toy (m_insert (usual w) idc 100 (Some (r2 RB)) [K4; K5] [v1; v2]) (ser (s3 RB)) = (ROk r', z) ∧
  (∀ k, brun toy (m_get_one (usual w) idc 100 (r1 RB) k) z = (ROk (M1 !! k), z)).
Proof.
  destruct (C76_insert_live (usual w) 2 toy _ idc idc (Nat.lt_0_succ 1) idc_ok ltac:(by apply fitsb_sound) ltac:(done) ltac:(done)
    (s3 RB) (lg3 RB) 6 w3 (r2 RB) M2 100 [K4; K5] [v1; v2] used_s3) as (r' & z & Hb & _ & Hold);
    try (destruct w; apply fitsb_sound; vm_compute; reflexivity).
  - exists (hs2 RB). split; [right; exact rocks_failed|left].
  - apply hazard_b_mild. vm_compute. reflexivity.
  - done.
  - done.
  - apply (bool_decide_unpack _). vm_compute. exact I.
  - intros v _. by eexists.
  - lia.
  - nc.
  - apply short_b_sound. vm_compute. reflexivity.
  - exists r', z. split; [exact Hb|]. intros k. apply Hold. exists (hs2 RB). split; [right; exact rocks_failed|right; left].
Qed.

(** C27: shape of the trees of every history; [tree_ok] is defined in Spec.v. *)
Theorem C27_live :
  ∀ (n : nat) (B : backend n) {HB : BackendOk B} (H : list bytes → arr n) (V : Type)
    (enc : V → res bytes) (dec : bytes → res V), 0 < n → codec_ok enc dec →
  ∀ st lg r M, live B H enc dec st lg r M → no_collision H lg → tree_ok (b_vis B st) r M.
Proof. intros n B HB H V enc dec Hn Hc. exact (live_tree_ok Hn B H enc dec Hc). Qed.
Print Assumptions C27_live.
Example C27_live_case : tree_ok (b_vis RB (w5 RB)) (r2 RB) M2.
Proof.
  apply (C27_live 2 RB toy _ idc idc ltac:(lia) idc_ok _ (wlg4 RB)); [|nc]. exists (whs5 RB). split; [right; exact rocks_cut|left].
Qed.
(** C27: the tree of an insertion into any live root, also where branches are created again; the others stay. *)
Theorem C27_insert_live :
  ∀ (n : nat) (B : backend n) {HB : BackendOk B} (H : list bytes → arr n) (V : Type)
    (enc : V → res bytes) (dec : bytes → res V), 0 < n → codec_ok enc dec → lazy_or_eager B →
  ∀ st lg D prev M ks vs r', match prev with Some r => live B H enc dec st lg r M | None => M = ∅ end →
  no_collision H (lg ++ hlog B H (insert enc D prev ks vs) st) → mild M ks →
  out B H (insert enc D prev ks vs) st = ROk r' →
  tree_ok (b_vis B (fin B H (insert enc D prev ks vs) st)) r' (list_to_map (zip ks vs) ∪ M) ∧
  (∀ r0 M0, live B H enc dec st lg r0 M0 → tree_ok (b_vis B (fin B H (insert enc D prev ks vs) st)) r0 M0).
Proof. intros n B HB H V enc dec Hn Hc Hl. exact (every_tree_ok Hn B H enc dec Hc Hl). Qed.
Print Assumptions C27_insert_live.
Example C27_insert_live_case : tree_ok (b_vis HB (fin HB toy (insert idc 17 None [K2; K1] [v2; v1]) (w5 HB))) (r2 HB) M2.
Proof.
  refine (proj2 (C27_insert_live 2 HB toy _ idc idc ltac:(lia) idc_ok (hash_eager 2) (w5 HB) (wlg4 HB) 17 None ∅ [K2; K1] [v2; v1] (r1 HB) eq_refl _ _ _) _ _ _);
    [nc|apply hazard_b_mild; vm_compute; reflexivity|vm_compute; reflexivity|].
  exists (whs5 HB). split; [right; exact hash_cut|left].
Qed.

(** C88: the tree of a call without previous root has the right shape in any state of the database. *)
Theorem C88_shape :
  ∀ (n : nat) (B : backend n) {HB : BackendOk B} (H : list bytes → arr n) (V : Type)
    (enc : V → res bytes) (dec : bytes → res V), 0 < n → codec_ok enc dec → lazy_or_eager B →
  ∀ st D (ks : list (arr n)) vs r, no_collision H (hlog B H (insert enc D None ks vs) st) →
  out B H (insert enc D None ks vs) st = ROk r →
  tree_ok (b_vis B (fin B H (insert enc D None ks vs) st)) r (list_to_map (zip ks vs) : gmap (arr n) V).
Proof. intros n B HB H V enc dec Hn Hc Hl. exact (any_tree_ok Hn B H enc dec Hc Hl). Qed.
Print Assumptions C88_shape.
Example C88_shape_case : tree_ok (b_vis RB (fin RB toy i1 (junk RB))) (r1 RB) (list_to_map (zip [K2; K1] [v2; v1]) : gmap (arr 2) bytes).
Proof. apply (C88_shape 2 RB toy _ idc idc ltac:(lia) idc_ok (rocks_lazy 2)); [nc|vm_compute; reflexivity]. Qed.

(** C89: shape of copied trees, and of trees grown from them. *)
Theorem C89_shape :
  ∀ (n : nat) (B1 B : backend n) (HB1 : BackendOk B1) (HB : BackendOk B) (H : list bytes → arr n)
    (V : Type) (enc : V → res bytes) (dec : bytes → res V), 0 < n → codec_ok enc dec → lazy_or_eager B →
  ∀ st lg hs r M, away B1 B H enc dec st lg hs → no_collision H lg → (r, M) ∈ hs → tree_ok (b_vis B st) r M.
Proof. intros n B1 B HB1 HB H V enc dec Hn Hc Hl. exact (away_tree_ok Hn B1 B H enc dec Hc Hl). Qed.
Print Assumptions C89_shape.
Example C89_shape_case : tree_ok (b_vis RB host) (wr2 HB) W2.
Proof.
  apply (C89_shape 2 HB RB _ _ toy _ idc idc ltac:(lia) idc_ok (rocks_lazy 2) host ([] ++ dlg HB) [(wr2 HB, W2)]); [|nc|left].
  apply host_away; vm_compute; reflexivity.
Qed.

(** C09: two live roots of the same contents are equal, whatever the histories, databases and backends. *)
Theorem C09_live :
  ∀ (n : nat) (B : backend n) (HB : BackendOk B) (H : list bytes → arr n) (V : Type)
    (enc : V → res bytes) (dec : bytes → res V), 0 < n → codec_ok enc dec →
  ∀ (B2 : backend n) (HB2 : BackendOk B2) st lg r M (st2 : b_st B2) lg2 r2, live B H enc dec st lg r M →
  live B2 H enc dec st2 lg2 r2 M → no_collision H lg → no_collision H lg2 → r = r2.
Proof. intros n B HB H V enc dec Hn Hc. exact (@live_root_determined n Hn B HB H V enc dec Hc). Qed.
Print Assumptions C09_live.
(** With and without interruptions, in the two backends. *)
Example C09_live_case : r6 HB = r4 RB.
Proof.
  apply (C09_live 2 HB _ toy _ idc idc ltac:(lia) idc_ok RB _ (w6 HB) (wlg6 HB) (r6 HB) M4 (q4 RB) (lg4 RB));
    [exists (whs6 HB); split; [right; exact hash_scenario3|left]| |nc|nc].
  exists (hs4 RB). split; [right; apply rhist_whist; exact rocks_scenario2|left].
Qed.

(** C10: equal live roots have the same contents. *)
Theorem C10_live :
  ∀ (n : nat) (B : backend n) (HB : BackendOk B) (H : list bytes → arr n) (V : Type)
    (enc : V → res bytes) (dec : bytes → res V), 0 < n → codec_ok enc dec →
  ∀ (B2 : backend n) (HB2 : BackendOk B2) st lg r M (st2 : b_st B2) lg2 M2, live B H enc dec st lg r M →
  live B2 H enc dec st2 lg2 r M2 → no_collision H (lg ++ lg2) → M = M2.
Proof. intros n B HB H V enc dec Hn Hc. exact (@live_root_commits n Hn B HB H V enc dec Hc). Qed.
Print Assumptions C10_live.
Example C10_live_case : no_collision toy (wlg6 HB ++ wlg4 RB) ∧ live HB toy idc idc (w6 HB) (wlg6 HB) (r2 HB) M2 ∧
  live RB toy idc idc (w5 RB) (wlg4 RB) (r2 HB) M2.
Proof.
  split; [nc|]. split; [exists (whs6 HB); split; [right; exact hash_scenario3|right; left]|].
  replace (r2 HB) with (r2 RB) by (vm_compute; reflexivity). exists (whs5 RB). split; [right; exact rocks_cut|left].
Qed.

(** C12: a proof that verifies against a live root is of a pair in its tree. *)
Theorem C12_live :
  ∀ (n : nat) (B : backend n) {HB : BackendOk B} (H : list bytes → arr n) (V : Type)
    (enc : V → res bytes) (dec : bytes → res V), 0 < n → codec_ok enc dec →
  ∀ st lg r M k v p (B' : backend n) (st' : b_st B'), live B H enc dec st lg r M →
  no_collision H (lg ++ hlog B' H (verify_inclusion_proof enc r k v p) st') →
  out B' H (verify_inclusion_proof enc r k v p) st' = ROk tt → M !! k = Some v.
Proof. intros n B HB H V enc dec Hn Hc. exact (live_proofs_sound Hn B H enc dec Hc). Qed.
Print Assumptions C12_live.
Example C12_live_case : ∃ proof, live RB toy idc idc (w5 RB) (wlg4 RB) (r2 RB) M2 ∧
  out RB toy (verify_inclusion_proof idc (r2 RB) K3 v3 proof) (b_init RB) = ROk tt ∧
  no_collision toy (wlg4 RB ++ hlog RB toy (verify_inclusion_proof idc (r2 RB) K3 v3 proof) (b_init RB)).
Proof.
  exists (the_root (out RB toy (generate_inclusion_proof 17 (r2 RB) K3) (w5 RB)) []).
  split; [exists (whs5 RB); split; [right; exact rocks_cut|left]|]. split; [vm_compute; reflexivity|nc].
Qed.

(** C14: at most one value per key. *)
Theorem C14_live :
  ∀ (n : nat) (B : backend n) {HB : BackendOk B} (H : list bytes → arr n) (V : Type)
    (enc : V → res bytes) (dec : bytes → res V), 0 < n → codec_ok enc dec →
  ∀ st lg r M k v1 v2 p1 p2 (B1 B2 : backend n) (st1 : b_st B1) (st2 : b_st B2), live B H enc dec st lg r M →
  no_collision H (lg ++ hlog B1 H (verify_inclusion_proof enc r k v1 p1) st1
                     ++ hlog B2 H (verify_inclusion_proof enc r k v2 p2) st2) →
  out B1 H (verify_inclusion_proof enc r k v1 p1) st1 = ROk tt →
  out B2 H (verify_inclusion_proof enc r k v2 p2) st2 = ROk tt → v1 = v2.
Proof. intros n B HB H V enc dec Hn Hc. exact (live_one_value Hn B H enc dec Hc). Qed.
Print Assumptions C14_live.
(** [C12_live_case] gives a case with equal values; no proof of another value verifies. *)
Example C14_live_case p : no_collision toy (wlg4 RB ++ hlog HB toy (verify_inclusion_proof idc (r2 RB) K3 v4 p) (b_init HB)) →
  out HB toy (verify_inclusion_proof idc (r2 RB) K3 v4 p) (b_init HB) ≠ ROk tt.
Proof.
  intros Hc Ho. assert (M2 !! K3 = Some v4) as Hx; [|vm_compute in Hx; discriminate Hx].
  apply (C12_live 2 RB toy _ idc idc ltac:(lia) idc_ok (w5 RB) (wlg4 RB) (r2 RB) M2 K3 v4 p HB (b_init HB)); [|exact Hc|exact Ho].
  exists (whs5 RB). split; [right; exact rocks_cut|left].
Qed.

(** C48: the proof is the generated one, up to the sides of its first two entries. *)
Theorem C48_live :
  ∀ (n : nat) (B : backend n) {HB : BackendOk B} (H : list bytes → arr n) (V : Type)
    (enc : V → res bytes) (dec : bytes → res V), 0 < n → codec_ok enc dec →
  ∀ st lg r M D k v p (B' : backend n) (st' : b_st B'), live B H enc dec st lg r M → 8 * n + 1 ≤ D →
  no_collision H (lg ++ hlog B' H (verify_inclusion_proof enc r k v p) st') →
  out B' H (verify_inclusion_proof enc r k v p) st' = ROk tt →
  M !! k = Some v ∧ ∃ p', out B H (generate_inclusion_proof D r k) st = ROk p' ∧ p.*1 = p'.*1 ∧ drop 2 p = drop 2 p'.
Proof. intros n B HB H V enc dec Hn Hc. exact (live_proof_unique Hn B H enc dec Hc). Qed.
Print Assumptions C48_live.
Example C48_live_case p : no_collision toy (wlg4 RB ++ hlog HB toy (verify_inclusion_proof idc (r2 RB) K3 v3 p) (b_init HB)) →
  out HB toy (verify_inclusion_proof idc (r2 RB) K3 v3 p) (b_init HB) = ROk tt → length p = 5.
Proof.
  intros Hc Ho. destruct (C48_live 2 RB toy _ idc idc ltac:(lia) idc_ok (w5 RB) (wlg4 RB) (r2 RB) M2 17 K3 v3 p HB (b_init HB)) as (_ & p' & Hg & Hp & _);
    [exists (whs5 RB); split; [right; exact rocks_cut|left]|lia|exact Hc|exact Ho|].
  assert (length p' = 5) as Hl. { vm_compute in Hg. by injection Hg as <-. }
  apply (f_equal length) in Hp. rewrite !fmap_length in Hp. congruence.
Qed.

(** C60: the limit an overwriting insertion needs. *)
Theorem C60_overwrite_live :
  ∀ (n : nat) (B : backend n) {HB : BackendOk B} (H : list bytes → arr n) (V : Type)
    (enc : V → res bytes) (dec : bytes → res V), 0 < n → codec_ok enc dec →
  ∀ st lg r M k v p D0 v' D, live B H enc dec st lg r M →
  no_collision H (lg ++ hlog B H (insert_one enc D (Some r) k v') st) → M !! k = Some v →
  out B H (generate_inclusion_proof D0 r k) st = ROk p → (∃ e, enc v' = Ok e) →
  if length p <=? D + 2 then ∃ r', out B H (insert_one enc D (Some r) k v') st = ROk r'
  else out B H (insert_one enc D (Some r) k v') st = RErr "Depth of merkle tree exceeded".
Proof. intros n B HB H V enc dec Hn Hc. exact (live_overwrite Hn B H enc dec Hc). Qed.
Print Assumptions C60_overwrite_live.
Example C60_overwrite_live_case : out RB toy (insert_one idc 2 (Some (r2 RB)) K3 v4) (w5 RB) = RErr "Depth of merkle tree exceeded".
Proof.
  refine (C60_overwrite_live 2 RB toy _ idc idc ltac:(lia) idc_ok (w5 RB) (wlg4 RB) (r2 RB) M2 K3 v3
    (the_root (out RB toy (generate_inclusion_proof 17 (r2 RB) K3) (w5 RB)) []) 17 v4 2 _ _ _ _ _).
  - exists (whs5 RB). split; [right; exact rocks_cut|left].
  - nc.
  - vm_compute. reflexivity.
  - vm_compute. reflexivity.
  - by eexists.
Qed.

(** C25: what a successful insertion into a live root with one limit says about reads with another.  Missing: reads with
    the limit of the insertion itself, for which it is false ([C25_refuted]). *)
Theorem C25_live_partial :
  ∀ (n : nat) (B : backend n) {HB : BackendOk B} (H : list bytes → arr n) (V : Type)
    (enc : V → res bytes) (dec : bytes → res V), 0 < n → codec_ok enc dec → lazy_or_eager B →
  ∀ st lg D prev M ks vs r D', match prev with Some r0 => live B H enc dec st lg r0 M | None => M = ∅ end →
  no_collision H (lg ++ hlog B H (insert enc D prev ks vs) st) → mild M ks →
  out B H (insert enc D prev ks vs) st = ROk r → readable_depth D prev ks ≤ D' + 1 →
  let st' := fin B H (insert enc D prev ks vs) st in
  (∀ k, k ∈ ks → out B H (get_one dec (D' + 1) r k) st' = ROk (updated M ks vs !! k)) ∧
  (∀ ks', (∀ k, k ∈ ks' → k ∈ ks) → ∃ lm, out B H (get dec D' r ks') st' = ROk lm ∧
     ∀ k, k ∈ ks' → lm !! k = Some (updated M ks vs !! k)).
Proof. intros n B HB H V enc dec Hn Hc Hl. exact (live_readable Hn B H enc dec Hc Hl). Qed.
Print Assumptions C25_live_partial.
(** A pair inserted with the limit 3. *)
Example C25_live_case : ∃ r, out RB toy (insert idc 3 (Some (r2 RB)) [K5] [v1]) (w5 RB) = ROk r ∧
  out RB toy (get_one idc (readable_depth 3 (Some (r2 RB)) [K5]) r K5) (fin RB toy (insert idc 3 (Some (r2 RB)) [K5] [v1]) (w5 RB)) = ROk (Some v1).
Proof.
  destruct (is_ok_true (out RB toy (insert idc 3 (Some (r2 RB)) [K5] [v1]) (w5 RB))) as [r E]; [vm_compute; reflexivity|].
  exists r. split; [exact E|].
  destruct (C25_live_partial 2 RB toy _ idc idc ltac:(lia) idc_ok (rocks_lazy 2) (w5 RB) (wlg4 RB) 3 (Some (r2 RB)) M2 [K5] [v1] r
    (readable_depth 3 (Some (r2 RB)) [K5] - 1)) as [Hg _].
  - exists (whs5 RB). split; [right; exact rocks_cut|left].
  - nc.
  - left. apply benign_single.
  - exact E.
  - lia.
  - specialize (Hg K5 ltac:(left)). rewrite updated_single, lookup_insert in Hg. exact Hg.
Qed.

(** C25, C61: how the limits of the two reads of a live root relate. *)
Theorem C25_limits_live :
  ∀ (n : nat) (B : backend n) {HB : BackendOk B} (H : list bytes → arr n) (V : Type)
    (enc : V → res bytes) (dec : bytes → res V), 0 < n → codec_ok enc dec →
  ∀ st lg r M D k, live B H enc dec st lg r M → no_collision H lg →
  (∀ ks lm, mild M ks → k ∈ ks → out B H (get dec D r ks) st = ROk lm →
     out B H (get_one dec (D + 1) r k) st = ROk (M !! k)) ∧
  (∀ o, out B H (get_one dec D r k) st = ROk o → ∃ lm, out B H (get dec D r [k]) st = ROk lm).
Proof. intros n B HB H V enc dec Hn Hc. exact (live_reads_limits Hn B H enc dec Hc). Qed.
Print Assumptions C25_limits_live.
Example C25_limits_live_case : out RB toy (get_one idc 4 (r2 RB) K3) (w5 RB) = ROk (Some v3).
Proof.
  destruct (is_ok_true (out RB toy (get idc 3 (r2 RB) [K3; K1]) (w5 RB))) as [lm E]; [vm_compute; reflexivity|].
  refine (proj1 (C25_limits_live 2 RB toy _ idc idc ltac:(lia) idc_ok (w5 RB) (wlg4 RB) (r2 RB) M2 3 K3 _ _) [K3; K1] lm _ _ E).
  - exists (whs5 RB). split; [right; exact rocks_cut|left].
  - nc.
  - apply hazard_b_mild. vm_compute. reflexivity.
  - left.
Qed.

(** C28: an insertion into a live root takes nothing away: at every moment, all nodes of the database are there as they
    were, up to their counts. *)
Theorem C28_live_keeps :
  ∀ (n : nat) (B : backend n) {HB : BackendOk B} (H : list bytes → arr n) (V : Type)
    (enc : V → res bytes) (dec : bytes → res V), 0 < n → codec_ok enc dec →
  ∀ st lg D r M ks vs st', live B H enc dec st lg r M →
  no_collision H (lg ++ hlog B H (insert enc D (Some r) ks vs) st) → benign M ks →
  st' ∈ states B H (insert enc D (Some r) ks vs) st →
  ∀ l nd, b_vis B st !! l = Some nd → ∃ rf, b_vis B st' !! l = Some (Node rf (var nd)).
Proof. intros n B HB H V enc dec Hn Hc. exact (live_keeps Hn B H enc dec Hc). Qed.
Print Assumptions C28_live_keeps.
Example C28_live_keeps_case : ∀ l nd, b_vis RB (w5 RB) !! l = Some nd →
  ∃ rf, b_vis RB (fin RB toy (insert idc 16 (Some (r2 RB)) [K5] [v1]) (w5 RB)) !! l = Some (Node rf (var nd)).
Proof.
  apply (C28_live_keeps 2 RB toy _ idc idc ltac:(lia) idc_ok (w5 RB) (wlg4 RB) 16 (r2 RB) M2 [K5] [v1]).
  - exists (whs5 RB). split; [right; exact rocks_cut|left].
  - nc.
  - apply benign_single.
  - apply run_in_states.
Qed.

(** C28: it adds at most the nodes on the ways to the inserted keys, counted by their proofs. *)
Theorem C28_live_size :
  ∀ (n : nat) (B : backend n) {HB : BackendOk B} (H : list bytes → arr n) (V : Type)
    (enc : V → res bytes) (dec : bytes → res V), 0 < n → codec_ok enc dec →
  ∀ st lg D r M ks vs r' D' ps, live B H enc dec st lg r M →
  no_collision H (lg ++ hlog B H (insert enc D (Some r) ks vs) st) → benign M ks →
  out B H (insert enc D (Some r) ks vs) st = ROk r' →
  let st' := fin B H (insert enc D (Some r) ks vs) st in
  Forall2 (λ k p, out B H (generate_inclusion_proof D' r' k) st' = ROk p) ks ps →
  size (b_vis B st') ≤ size (b_vis B (b_flush B st)) + sum_list_with length ps.
Proof. intros n B HB H V enc dec Hn Hc. exact (live_size Hn B H enc dec Hc). Qed.
Print Assumptions C28_live_size.
Example C28_live_size_case : let st' := fin RB toy (insert idc 16 (Some (r2 RB)) [K5] [v1]) (w5 RB) in
  ∃ r p, out RB toy (insert idc 16 (Some (r2 RB)) [K5] [v1]) (w5 RB) = ROk r ∧ out RB toy (generate_inclusion_proof 17 r K5) st' = ROk p ∧
  size (b_vis RB st') ≤ size (b_vis RB (b_flush RB (w5 RB))) + sum_list_with length [p].
Proof.
  intros st'. set (i := insert idc 16 (Some (r2 RB)) [K5] [v1]) in *.
  set (r := the_root (out RB toy i (w5 RB)) K1).
  assert (E : out RB toy i (w5 RB) = ROk r) by (vm_compute; reflexivity).
  destruct (is_ok_true (out RB toy (generate_inclusion_proof 17 r K5) st')) as [p Ep]; [vm_compute; reflexivity|].
  exists r, p. split; [exact E|]. split; [exact Ep|].
  apply (C28_live_size 2 RB toy _ idc idc ltac:(lia) idc_ok (w5 RB) (wlg4 RB) 16 (r2 RB) M2 [K5] [v1] r 17 [p]).
  - exists (whs5 RB). split; [right; exact rocks_cut|left].
  - nc.
  - apply benign_single.
  - exact E.
  - constructor; [exact Ep|constructor].
Qed.
