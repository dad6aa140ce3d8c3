(** * What may depend on the release of Rust
    Statements only; see PropsHist.v for the conventions.  [insert_with pp] and [get_with pp bs] are
    [insert] and [get] with [pp] for [partition_point] and [bs] for [binary_search]; they, [documented_pp],
    [documented_bs], and the functions of Rust 1.82 are defined in Release.v.  The functions of older
    releases are those of Model.v.  The tree of the examples is that of Scenario13.v. *)
From Coq Require Import Strings.Byte NArith.
From stdpp Require Import prelude countable gmap sorting strings.
From Verif Require Import Model Bits Spec Logic Claims Live Release Scenario Refuted Scenario8 Scenario12 Scenario13.

Local Open Scope nat_scope.

(** C90: the search functions of older and newer releases are as documented. *)
Theorem C90_documented :
  ∀ n, documented_pp (n := n) partition_point ∧ documented_pp (n := n) pp_1_82 ∧
       documented_bs (n := n) binary_search ∧ documented_bs (n := n) bs_1_82.
Proof.
  intros n. exact (conj (@old_pp_documented n) (conj (@new_pp_documented n) (conj (@old_bs_documented n) (@new_bs_documented n)))).
Qed.
Print Assumptions C90_documented.
(** They differ where nothing is documented. *)
Example C90_documented_case :
  let p (k : arr 2) := bool_decide (k ≠ K1) in let xs := [KX; KX; KX; KX; K1; KX] in
  partition_point p xs ≠ pp_1_82 p xs.
Proof. vm_compute. discriminate. Qed.
Example C90_documented_case2 : pp_1_82 (λ k : arr 2, bool_decide (arr_cmp k K3 = Lt)) [K1; K2; K3] = 2 ∧
  partition_point (λ k : arr 2, bool_decide (arr_cmp k K3 = Lt)) [K1; K2; K3] = 2 ∧ bs_1_82 [K1; K2; K3] K3 = Some 2.
Proof. vm_compute. repeat split; reflexivity. Qed.

(** C90, the full statement ([insert] and [get] return the same whatever [partition_point] and
    [binary_search] do where nothing is documented) is false: a batch accepted by a program compiled
    with an older release and rejected by one compiled with a newer one; a batch for which the two
    return different roots; a request for which only one of them finds a key. *)
Theorem C90_refuted :
  ∀ B : backend 2, B = hash_db 2 ∨ B = rocks_db 2 →
  (∃ st lg r M ks vs r', live B toy idc idc st lg r M ∧ length ks = length vs ∧ NoDup ks ∧
     no_collision toy (lg ++ hlog B toy (insert idc 17 (Some r) ks vs) st ++ hlog B toy (insert_with pp_1_82 idc 17 (Some r) ks vs) st) ∧
     out B toy (insert idc 17 (Some r) ks vs) st = ROk r' ∧
     out B toy (insert_with pp_1_82 idc 17 (Some r) ks vs) st = RErr "Attempted to insert item with duplicate keys") ∧
  (∃ st lg r M ks vs r1 r2, live B toy idc idc st lg r M ∧ length ks = length vs ∧ NoDup ks ∧
     no_collision toy (lg ++ hlog B toy (insert idc 17 (Some r) ks vs) st ++ hlog B toy (insert_with pp_1_82 idc 17 (Some r) ks vs) st) ∧
     out B toy (insert idc 17 (Some r) ks vs) st = ROk r1 ∧
     out B toy (insert_with pp_1_82 idc 17 (Some r) ks vs) st = ROk r2 ∧ r1 ≠ r2) ∧
  (∃ st lg r M ks lm1 lm2 k v, live B toy idc idc st lg r M ∧ no_collision toy lg ∧ NoDup ks ∧
     out B toy (get idc 17 r ks) st = ROk lm1 ∧ out B toy (get_with pp_1_82 bs_1_82 idc 17 r ks) st = ROk lm2 ∧
     lm1 !! k = Some (Some v) ∧ lm2 !! k = Some None).
Proof. exact release_refuted. Qed.
Print Assumptions C90_refuted.

(** C90, insertion: for batches without the hazard of Spec.v, the result, the database and the strings
    hashed are the same for all implementations of [partition_point].  Missing: batches with the hazard,
    for which it is false ([C90_refuted]). *)
Theorem C90_insert_partial :
  ∀ (n : nat) (B : backend n) {HB : BackendOk B} (H : list bytes → arr n) (V : Type)
    (enc : V → res bytes) (dec : bytes → res V) pp, 0 < n → codec_ok enc dec → documented_pp pp →
  ∀ st lg r M D (ks : list (arr n)) vs, live B H enc dec st lg r M →
  no_collision H (lg ++ hlog B H (insert enc D (Some r) ks vs) st) → benign M ks →
  run B H (insert_with pp enc D (Some r) ks vs) st = run B H (insert enc D (Some r) ks vs) st.
Proof. intros n B HB H V enc dec pp Hn Hc Hpp. exact (insert_with_same Hn pp Hpp B H enc dec Hc). Qed.
Print Assumptions C90_insert_partial.
Example C90_insert_case :
  run (rocks_db 2) toy (insert_with pp_1_82 idc 17 (Some (rroot (rocks_db 2))) [K x00 x21; K x80 x00; K x00 x40; KX] [v1; v2; v3; v5]) (rst (rocks_db 2)) =
  run (rocks_db 2) toy (insert idc 17 (Some (rroot (rocks_db 2))) [K x00 x21; K x80 x00; K x00 x40; KX] [v1; v2; v3; v5]) (rst (rocks_db 2)).
Proof.
  apply (C90_insert_partial 2 (rocks_db 2) _ _ idc idc _ (Nat.lt_0_succ 1) idc_ok (proj1 (proj2 (C90_documented 2))) _ _ _ _ _ _ _
    (rel_live (rocks_db 2) ltac:(vm_compute; reflexivity))); [nc|]. apply hazard_b_sound. vm_compute. reflexivity.
Qed.
(** The insertion of the example succeeds. *)
Example C90_insert_ok : ∃ r, out (rocks_db 2) toy (insert idc 17 (Some (rroot (rocks_db 2)))
  [K x00 x21; K x80 x00; K x00 x40; KX] [v1; v2; v3; v5]) (rst (rocks_db 2)) = ROk r.
Proof. apply is_ok_true. vm_compute. reflexivity. Qed.

(** C90, insertion into no tree: it does not use the search. *)
Theorem C90_insert_first :
  ∀ (n : nat) (V : Type) (enc : V → res bytes) pp D (ks : list (arr n)) vs,
  insert_with pp enc D None ks vs = insert enc D None ks vs.
Proof. intros n V enc pp. exact (insert_with_none pp enc). Qed.
Print Assumptions C90_insert_first.

(** C90, requests without the hazard.  Missing: requests with it ([C90_refuted]). *)
Theorem C90_get_partial :
  ∀ (n : nat) (B : backend n) {HB : BackendOk B} (H : list bytes → arr n) (V : Type)
    (enc : V → res bytes) (dec : bytes → res V) pp bs, 0 < n → codec_ok enc dec → documented_pp pp → documented_bs bs →
  ∀ st lg r M D (ks : list (arr n)), live B H enc dec st lg r M → no_collision H lg → benign M ks →
  run B H (get_with pp bs dec D r ks) st = run B H (get dec D r ks) st.
Proof. intros n B HB H V enc dec pp bs Hn Hc Hpp Hbs. exact (get_with_same Hn pp bs Hpp Hbs B H enc dec Hc). Qed.
Print Assumptions C90_get_partial.
Example C90_get_case :
  run (hash_db 2) toy (get_with pp_1_82 bs_1_82 idc 17 (rroot (hash_db 2)) [K x00 x21; K x80 x00; K x00 x21; KX]) (rst (hash_db 2)) =
  run (hash_db 2) toy (get idc 17 (rroot (hash_db 2)) [K x00 x21; K x80 x00; K x00 x21; KX]) (rst (hash_db 2)).
Proof.
  destruct (C90_documented 2) as (_ & Hp & _ & Hb).
  apply (C90_get_partial 2 (hash_db 2) _ _ idc idc _ _ (Nat.lt_0_succ 1) idc_ok Hp Hb _ _ _ _ _ _
    (rel_live (hash_db 2) ltac:(vm_compute; reflexivity))); [nc|]. apply hazard_b_sound. vm_compute. reflexivity.
Qed.

(** C90, at most three keys: the same in every database, damaged or not, for every tree and with the
    hazard or without it. *)
Theorem C90_short :
  ∀ (n : nat) (B : backend n) {HB : BackendOk B} (H : list bytes → arr n) (V : Type)
    (enc : V → res bytes) (dec : bytes → res V) pp bs, documented_pp pp → documented_bs bs →
  ∀ st D (ks : list (arr n)), length ks ≤ 3 →
  (∀ prev vs, run B H (insert_with pp enc D prev ks vs) st = run B H (insert enc D prev ks vs) st) ∧
  (∀ r, run B H (get_with pp bs dec D r ks) st = run B H (get dec D r ks) st).
Proof.
  intros n B HB H V enc dec pp bs Hpp Hbs st D ks Hl.
  exact (conj (λ prev vs, insert_with_short pp Hpp H B enc D prev ks vs st Hl) (λ r, get_with_short pp bs Hpp Hbs H B dec D r ks st Hl)).
Qed.
Print Assumptions C90_short.
(** A damaged database, in which the request succeeds. *)
Example C90_short_case :
  let B := rocks_db 2 in
  run B toy (get_with pp_1_82 bs_1_82 idc 17 (wr2 B) [K3; K1; K2]) (forged B) = run B toy (get idc 17 (wr2 B) [K3; K1; K2]) (forged B) ∧
  is_ok (out B toy (get idc 17 (wr2 B) [K3; K1; K2]) (forged B)) = true ∧
  run B toy (insert_with pp_1_82 idc 17 (Some (wr2 B)) [K3; KX; K1] [v1; v2; v3]) (forged B) =
  run B toy (insert idc 17 (Some (wr2 B)) [K3; KX; K1] [v1; v2; v3]) (forged B) ∧
  is_ok (out B toy (insert idc 17 (Some (wr2 B)) [K3; KX; K1] [v1; v2; v3]) (forged B)) = true.
Proof.
  intros B. destruct (C90_documented 2) as (_ & Hp & _ & Hb).
  destruct (C90_short 2 B toy bytes idc idc _ _ Hp Hb (forged B) 17 [K3; K1; K2] (le_n 3)) as [_ Hg].
  destruct (C90_short 2 B toy bytes idc idc _ _ Hp Hb (forged B) 17 [K3; KX; K1] (le_n 3)) as [Hi _].
  split; [apply Hg|]. split; [vm_compute; reflexivity|]. split; [apply Hi|]. vm_compute. reflexivity.
Qed.
