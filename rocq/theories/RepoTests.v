(** * The tests of the repository, run on the model
    Not properties: a check of the transcription.  The tests of
    /repo/tests/merkle_bit.rs and of the module [tests] of
    /repo/src/merkle_bit.rs:922-1122 pass on the Rust code; here they are
    evaluated on the model, with both backends, keys of 32 bytes and a hash
    function into 32 bytes.  Tests with random data use a small generator
    instead of [StdRng] (and fewer entries than 4096), the others the same keys,
    values and depth limits as in the repository. *)
From Coq Require Import Strings.Byte NArith.
From stdpp Require Import prelude countable gmap sorting strings.
From Verif Require Import Model.

Local Open Scope nat_scope.

(** ** Keys, values, hash function *)
Definition byt (x : nat) : byte := default x00 (Byte.of_N (N.of_nat x mod 256)%N).
(** [[x; KEY_LEN]] and [vec![x; k]]. *)
Definition key32 (x : nat) : arr 32 := mkarr 32 (repeat (byt x) 32).
Definition val (k x : nat) : bytes := repeat (byt x) k.
Definition digits (k : nat) (h : N) : bytes :=
  (fix go k h := match k with 0 => [] | S k => default x00 (Byte.of_N (h mod 256)%N) :: go k (h / 256)%N end) k h.
(** FNV-1a, 64 bits, padded with zeros. *)
Definition hash32 (cs : list bytes) : arr 32 :=
  mkarr 32 (digits 8 (fold_left (λ h b, N.land (N.lxor h (Byte.to_N b) * 1099511628211) (N.ones 64))
                        (concat cs) 14695981039346656037%N)).
(** A generator in place of [StdRng]: [num] keys and values. *)
Definition lcg (s : N) : N := ((s * 6364136223846793005 + 1442695040888963407) mod 2 ^ 64)%N.
Fixpoint rand (s : N) (k : nat) : bytes :=
  match k with 0 => [] | S k => default x00 (Byte.of_N (s / 2 ^ 40 mod 256)%N) :: rand (lcg s) k end.
Definition prepare_inserts (seed : N) (num : nat) : list (arr 32) * list bytes :=
  (sort_keys (map (λ i, mkarr 32 (rand (lcg (seed * 1000 + N.of_nat i)%N) 32)) (seq 0 num)),
   map (λ i, rand (lcg (seed * 1000 + 500 + N.of_nat i)%N) 32) (seq 0 num)).

(** ** Tests as functions of the state; [None]: the test fails *)
Section Tests.
  Context (B : backend 32).
  Notation test A := (b_st B → option (A * b_st B)).
  Notation key := (arr 32).
  Definition ret {A} (a : A) : test A := λ s, Some (a, s).
  Definition bnd {A C} (t : test A) (f : A → test C) : test C :=
    λ s, match t s with Some (a, s') => f a s' | None => None end.
  Notation "x <~ t ; u" := (bnd t (λ x, u)) (at level 100, t at level 90, right associativity).
  Definition calls {A} (p : prog 32 A) : test A :=
    λ s, match run B hash32 p s with (ROk a, s', _) => Some (a, s') | _ => None end.
  Definition fails {A} (p : prog 32 A) : test unit :=
    λ s, match run B hash32 p s with (RErr _, s', _) => Some (tt, s') | _ => None end.
  Definition check (b : bool) : test unit := λ s, if b then Some (tt, s) else None.
  Fixpoint all {A} (l : list A) (f : A → test unit) : test unit :=
    match l with [] => ret tt | a :: l => _ <~ f a; all l f end.
  Definition passes (t : test unit) : bool := match t (b_init B) with Some _ => true | None => false end.

  Definition ok (v : bytes) : res bytes := Ok v.
  Definition t_insert (D : nat) (prev : option key) ks vs : test key := calls (insert ok D prev ks vs).
  Definition t_insert_one (D : nat) (prev : option key) k v : test key := calls (insert_one ok D prev k v).
  Definition t_get (D : nat) r ks : test (gmap key (option bytes)) := calls (get ok D r ks).
  Definition t_get_one (D : nat) r k : test (option bytes) := calls (get_one ok D r k).
  Definition t_remove r : test unit := λ s, calls (remove_prog B s r) s.
  Definition t_prove (D : nat) r k : test (list (key * bool)) := calls (generate_inclusion_proof D r k).
  (** [assert_eq!(items[&key], Some(value))] for all pairs. *)
  Definition has (items : gmap key (option bytes)) (k : key) (v : option bytes) : bool :=
    bool_decide (items !! k = Some v).
  Definition has_all items ks vs : bool := forallb (λ p, has items p.1 (Some p.2)) (combine ks vs).
  Definition has_none items ks : bool := forallb (λ k, has items k None) ks.
  Definition insert_get (D : nat) ks vs : test unit :=
    r <~ t_insert D None ks vs;
    let ks := keys_after_insert ks vs in
    items <~ t_get D r ks;
    check (has_all items (keys_after_get ks) vs).

  (** tests/merkle_bit.rs:73-139 (both tests), 142-160, 163-183. *)
  Definition it_works_with_a_real_database : test unit :=
    r <~ t_insert 160 None [key32 0xAA] [val 1 0xFF];
    a <~ t_get 160 r [key32 0xAA];
    _ <~ t_remove r;
    b <~ t_get 160 r [key32 0xAA];
    check (has a (key32 0xAA) (Some (val 1 0xFF)) && has b (key32 0xAA) None).
  Definition it_fails_to_get_from_empty_tree : test unit :=
    a <~ t_get 160 (key32 1) [key32 0]; check (has a (key32 0) None).
  Definition it_fails_to_get_a_nonexistent_item : test unit :=
    r <~ t_insert 160 None [key32 0xAA] [val 1 0xFF];
    a <~ t_get 160 r [key32 0xAB];
    check (has a (key32 0xAB) None).
  (** 186-345: 8, 7, 16, 24, 25, 256 and 255 keys. *)
  Definition it_gets_items_from_a_tree (D sh num : nat) : test unit :=
    insert_get D (map (λ i, key32 (i * 2 ^ sh)) (seq 0 num)) (map (λ i, val 32 i) (seq 0 num)).
  (** 348-406 (with [num] keys). *)
  Definition it_gets_items_from_a_large_tree (num : nat) : test unit :=
    insert_get 16 (map (λ i, mkarr 32 [byt (i / 256); byt i]) (seq 0 num))
                  (map (λ i, resize 32 x00 [byt (i / 256); byt i]) (seq 0 num)).
  (** 409-486. *)
  Definition it_gets_items_from_a_complex_tree : test unit :=
    r <~ t_insert 5 None (map key32 [0x60; 0x68; 0x80; 0xF0]) (map (val 1) [1; 2; 3; 4]);
    let ks := map key32 [0x00; 0x40; 0x41; 0x60; 0x68; 0x70; 0x71; 0x72; 0x80; 0xC0; 0xC1; 0xE0; 0xE1; 0xE2; 0xF0; 0xF8] in
    items <~ t_get 5 r ks;
    check (forallb (λ p, has items p.1 (val 1 <$> p.2))
      (combine ks [None; None; None; Some 1; Some 2; None; None; None; Some 3; None; None; None; None; None; Some 4; None])).
  (** 489-516. *)
  Definition it_returns_the_same_number_of_values_as_keys : test unit :=
    r <~ t_insert 3 None [key32 0] [val 1 0xFF];
    items <~ t_get 3 r (map key32 (seq 0 256));
    check (has items (key32 0) (Some (val 1 0xFF)) && has_none items (map key32 (seq 1 255)) && (size items =? 256)).
  (** 519-591. *)
  Definition it_inserts_two_leaf_nodes_into_empty_tree : test unit := insert_get 3 (map key32 [0; 1]) (map (val 1) [2; 3]).
  Definition it_inserts_two_leaf_nodes_with_first_bit_split : test unit :=
    insert_get 3 (map key32 [0; 0x80]) (map (val 1) [2; 3]).
  Definition it_inserts_multiple_leaf_nodes_into_empty_tree : test unit :=
    insert_get 3 (map key32 [0xAA; 0xBB; 0xCC]) (map (val 1) [0xDD; 0xEE; 0xFF]).
  (** 594-717 (random data). *)
  Definition it_inserts_nodes_into_empty_tree (seed : N) (num : nat) : test unit :=
    insert_get 16 (prepare_inserts seed num).1 (prepare_inserts seed num).2.
  (** 720-743. *)
  Definition it_inserts_a_leaf_node_into_a_tree_with_one_item : test unit :=
    r <~ t_insert 3 None [key32 0xAA] [val 1 0xBB];
    r' <~ t_insert 3 (Some r) [key32 0xCC] [val 1 0xDD];
    items <~ t_get 3 r' [key32 0xAA; key32 0xCC];
    check (has items (key32 0xAA) (Some (val 1 0xBB)) && has items (key32 0xCC) (Some (val 1 0xDD))).
  (** 746-812 (random data). *)
  Definition it_inserts_multiple_leaf_nodes_into_a_tree (seed : N) (num : nat) : test unit :=
    let a := prepare_inserts seed num in let b := prepare_inserts (seed + 1) num in
    r <~ t_insert 160 None a.1 a.2; r' <~ t_insert 160 (Some r) b.1 b.2;
    x <~ t_get 160 r a.1; y <~ t_get 160 r' b.1;
    check (has_all x a.1 a.2 && has_all y b.1 b.2).
  (** 815-838, 841-875. *)
  Definition it_updates_an_existing_entry : test unit :=
    r <~ t_insert 3 None [key32 0xAA] [val 1 0xBB]; r' <~ t_insert 3 (Some r) [key32 0xAA] [val 1 0xCC];
    x <~ t_get 3 r [key32 0xAA]; y <~ t_get 3 r' [key32 0xAA];
    check (has x (key32 0xAA) (Some (val 1 0xBB)) && has y (key32 0xAA) (Some (val 1 0xCC))).
  Definition it_updates_multiple_existing_entries (seed : N) (num : nat) : test unit :=
    let a := prepare_inserts seed num in let vs := map (val 32) (seq 0 num) in
    r <~ t_insert 160 None a.1 a.2; r' <~ t_insert 160 (Some r) a.1 vs;
    x <~ t_get 160 r a.1; y <~ t_get 160 r' a.1;
    check (has_all x a.1 a.2 && has_all y a.1 vs).
  (** 878-887, 890-911, 914-944. *)
  Definition it_does_not_panic_when_removing_a_nonexistent_node : test unit := t_remove (key32 0).
  Definition it_removes_an_entire_tree (ks : list key) (vs : list bytes) : test unit :=
    r <~ t_insert 160 None ks vs; x <~ t_get 160 r ks; _ <~ check (has_all x ks vs);
    _ <~ t_remove r; y <~ t_get 160 r ks; check (has_none y ks).
  (** 947-972, 975-1020, 1023-1051. *)
  Definition it_removes_an_old_root (k1 : list key) v1 k2 v2 : test unit :=
    r <~ t_insert 160 None k1 v1; r' <~ t_insert 160 (Some r) k2 v2; _ <~ t_remove r;
    x <~ t_get 160 r' k1; y <~ t_get 160 r' k2; z <~ t_get 160 r' (k1 ++ k2);
    check (has_all x k1 v1 && has_all y k2 v2 && has_all z (k1 ++ k2) (v1 ++ v2)).
  (** 1054-1069, 1146-1160 and 1563-1659: [iterate_inserts], [iterate_removals]. *)
  Fixpoint iterate_inserts (seed : N) (per todo : nat) (prev : option key)
      (groups : list (list key * list bytes)) (roots : list key) : test (list key * list (list key * list bytes)) :=
    match todo with
    | 0 => ret (reverse roots, reverse groups)
    | S todo =>
        let a := prepare_inserts seed per in
        r <~ t_insert 160 prev a.1 a.2;
        x <~ t_get 160 r a.1; _ <~ check (has_all x a.1 a.2);
        _ <~ all (a :: groups) (λ g, y <~ t_get 160 r g.1; check (has_all y g.1 g.2));
        iterate_inserts (seed + 1) per todo (Some r) (a :: groups) (r :: roots)
    end.
  Definition it_iterates_over_multiple_inserts_correctly (per k : nat) : test unit :=
    _ <~ iterate_inserts 239 per k None [] []; ret tt.
  Definition it_correctly_iterates_removals (per k : nat) : test unit :=
    rg <~ iterate_inserts 168 per k None [] [];
    all (removelast (combine rg.1 rg.2)) (λ p,
      _ <~ t_remove p.1; y <~ t_get 160 p.1 p.2.1; check (has_none y p.2.1)).
  (** 1072-1102, 1105-1143. *)
  Definition it_inserts_with_compressed_nodes (ks : list nat) : test unit :=
    let vs := map (val 1) [0; 1; 2; 3; 4] in
    r <~ t_insert 160 None (take 2 (map key32 ks)) (take 2 vs);
    r' <~ t_insert 160 (Some r) (drop 2 (map key32 ks)) (drop 2 vs);
    items <~ t_get 160 r' (map key32 ks);
    check (has_all items (map key32 ks) vs).
  (** 1163-1180. *)
  Definition it_correctly_increments_a_leaf_reference_count : test unit :=
    r <~ t_insert 160 None [key32 0] [val 1 0]; r' <~ t_insert 160 (Some r) [key32 0] [val 1 0];
    _ <~ t_remove r; x <~ t_get 160 r' [key32 0]; check (has x (key32 0) (Some (val 1 0))).
  (** 1183-1298. *)
  Definition it_generates_inclusion_proofs (ks : list key) vs : test unit :=
    r <~ t_insert 160 None ks vs;
    all (combine ks vs) (λ p,
      pr <~ t_prove 160 r p.1; _ <~ calls (verify_inclusion_proof ok r p.1 p.2 pr);
      fails (verify_inclusion_proof ok (key32 3) p.1 p.2 pr)).
  (** 1301-1387. *)
  Definition it_gets_one_key_from_a_small_tree : test unit :=
    r <~ t_insert 3 None [key32 0x96] [val 1 0xB3]; x <~ t_get_one 3 r (key32 0x96);
    check (bool_decide (x = Some (val 1 0xB3))).
  Definition it_gets_one_key_from_a_large_tree (seed : N) (num : nat) : test unit :=
    let a := prepare_inserts seed num in
    r <~ t_insert 160 None a.1 a.2; x <~ t_get_one 160 r (nth (num / 2) a.1 (key32 0));
    check (bool_decide (x = Some (nth (num / 2) a.2 []))).
  Definition it_inserts_one_into_an_empty_tree : test unit :=
    r <~ t_insert_one 2 None (key32 0x78) (val 1 0x2B); x <~ t_get_one 2 r (key32 0x78);
    check (bool_decide (x = Some (val 1 0x2B))).
  Definition it_inserts_one_into_a_large_tree (seed : N) (num : nat) : test unit :=
    let a := prepare_inserts seed num in
    r <~ t_insert 160 None a.1 a.2; r' <~ t_insert_one 160 (Some r) (key32 0) (val 1 0);
    x <~ t_get_one 160 r' (key32 0); check (bool_decide (x = Some (val 1 0))).
  (** 1390-1417. *)
  Definition it_actually_removes_things_from_the_db (seed : N) (num : nat) : test unit :=
    let a := prepare_inserts seed num in
    r <~ t_insert 160 None a.1 a.2; _ <~ t_remove r; λ s, check (size (b_vis B s) =? 0) s.

  Definition suite : list bool := map passes
    [it_works_with_a_real_database; it_fails_to_get_from_empty_tree; it_fails_to_get_a_nonexistent_item;
     it_gets_items_from_a_tree 3 5 8; it_gets_items_from_a_tree 3 5 7; it_gets_items_from_a_tree 8 0 16;
     it_gets_items_from_a_tree 8 0 24; it_gets_items_from_a_tree 8 0 25; it_gets_items_from_a_tree 8 0 256;
     it_gets_items_from_a_tree 8 0 255; it_gets_items_from_a_large_tree 260; it_gets_items_from_a_complex_tree;
     it_returns_the_same_number_of_values_as_keys; it_inserts_two_leaf_nodes_into_empty_tree;
     it_inserts_two_leaf_nodes_with_first_bit_split; it_inserts_multiple_leaf_nodes_into_empty_tree;
     it_inserts_nodes_into_empty_tree 170 32; it_inserts_nodes_into_empty_tree 187 31;
     it_inserts_a_leaf_node_into_a_tree_with_one_item; it_inserts_multiple_leaf_nodes_into_a_tree 199 2;
     it_inserts_multiple_leaf_nodes_into_a_tree 202 64; it_updates_an_existing_entry;
     it_updates_multiple_existing_entries 238 64; it_does_not_panic_when_removing_a_nonexistent_node;
     it_removes_an_entire_tree [key32 0] [val 1 1];
     it_removes_an_entire_tree (prepare_inserts 187 64).1 (prepare_inserts 187 64).2;
     it_removes_an_old_root [key32 0] [val 1 1] [key32 2] [val 1 3];
     it_removes_an_old_root (map key32 [0; 1]) (map (val 1) [4; 5]) (map key32 [2; 3]) (map (val 1) [6; 7]);
     it_removes_an_old_root (prepare_inserts 186 16).1 (prepare_inserts 186 16).2
       (prepare_inserts 187 16).1 (prepare_inserts 187 16).2;
     it_iterates_over_multiple_inserts_correctly 4 6; it_correctly_iterates_removals 4 6;
     it_inserts_with_compressed_nodes [0; 1; 2; 0x10; 0x20];
     it_inserts_with_compressed_nodes [0x10; 0x11; 0; 1; 2];
     it_correctly_increments_a_leaf_reference_count; it_generates_inclusion_proofs [key32 0] [val 1 0];
     it_generates_inclusion_proofs (prepare_inserts 232 64).1 (prepare_inserts 232 64).2;
     it_gets_one_key_from_a_small_tree; it_gets_one_key_from_a_large_tree 97 64;
     it_inserts_one_into_an_empty_tree; it_inserts_one_into_a_large_tree 81 64;
     it_actually_removes_things_from_the_db 81 64].
End Tests.

(** Evaluated when the file is compiled; [Check] fails if the value is not
    [true].  No theorem is made of it (it would be evaluated again by coqchk). *)
Check (eq_refl : ltac:(let b := eval vm_compute in (forallb id (suite (hash_db 32))) in exact (b = true))).
Check (eq_refl : ltac:(let b := eval vm_compute in (forallb id (suite (rocks_db 32))) in exact (b = true))).

(** ** src/merkle_bit.rs:931-980 *)
Definition chooses (x : nat) (f : nat → bool) : bool :=
  forallb (λ i, match choose_zero (key32 x) i with Ok b => Bool.eqb b (f i) | _ => false end) (seq 0 8).
Example it_chooses_the_right_branch :
  forallb id [chooses 0x0F (λ i, i <? 4); chooses 0x55 (λ i, i mod 2 =? 0); chooses 0xAA (λ i, negb (i mod 2 =? 0));
    chooses 0x68 (λ i, negb ((i =? 1) || (i =? 2) || (i =? 4)));
    chooses 0xAB (λ i, negb ((i =? 0) || (i =? 2) || (i =? 4) || (i =? 6) || (i =? 7)))] = true.
Proof. vm_compute. reflexivity. Qed.
(** ** src/merkle_bit.rs:984-1121 *)
Definition splits (z o : nat) : bool :=
  match split_pairs (repeat (key32 0) z ++ repeat (key32 0xFF) o) 0 with
  | Ok zo => bool_decide (zo.1 = repeat (key32 0) z) && bool_decide (zo.2 = repeat (key32 0xFF) o)
  | _ => false
  end.
Example it_splits_a_sorted_list_of_pairs : forallb id [splits 10 0; splits 0 10; splits 5 5; splits 6 5; splits 5 6] = true.
Proof. vm_compute. reflexivity. Qed.
