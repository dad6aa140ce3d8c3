(** * FxHash and SeaHash
    Statements only; see PropsHist.v for the conventions.  [fx n] is the hasher
    of the feature [fxhash] (Fx.v), [sea n] that of [seahash] (Sea.v), [data_in k e] the string hashed to get the
    location of a value. *)
From Coq Require Import Strings.Byte NArith.
From stdpp Require Import prelude countable gmap sorting strings.
From Verif Require Import Model Bits Spec Logic Safe Claims Live Scenario Fx Forge Sea Scenario7.

Local Open Scope nat_scope.

Notation FH := (hash_db 32). Notation FR := (rocks_db 32).

(** C77: what the absence of collisions is needed for.  If a second value has the location of the value of a key,
    inserting that pair into the empty tree changes what every older root with the first pair holds, and proofs of
    the first pair prove the second. *)
Theorem C77_one_collision :
  ∀ (n : nat) (B : backend n) (HB : BackendOk B) (H : list bytes → arr n)
    (V : Type) (enc : V → res bytes) (dec : bytes → res V), 0 < n → codec_ok enc dec →
  ∀ st lg r M D (k : arr n) v v' e e', live B H enc dec st lg r M → no_collision H lg →
  M !! k = Some v → enc v = Ok e → enc v' = Ok e' → H (data_in k e) = H (data_in k e') →
  (∃ r', out B H (insert_one enc D None k v') st = ROk r' ∧
     holds B H dec (fin B H (insert_one enc D None k v') st) r (<[k := v']> M)) ∧
  (∀ (B' : backend n) (st' : b_st B') proof,
     out B' H (verify_inclusion_proof enc r k v' proof) st' = out B' H (verify_inclusion_proof enc r k v proof) st').
Proof. intros n B HB H V enc dec Hn Hc. exact (one_collision Hn B H enc dec Hc). Qed.
Print Assumptions C77_one_collision.
Example C77_one_collision_case k : out FR (fx 32) (get_one idc 257 (fr FR) k)
  (fin FR (fx 32) (insert_one idc 1 None F1 w1') (fs FR)) = ROk (<[F1 := w1']> fM !! k).
Proof.
  destruct (proj1 (C77_one_collision 32 FR _ (fx 32) _ idc idc (Nat.lt_0_succ 31) idc_ok (fs FR) (flg FR) (fr FR) fM
    1 F1 w1 w1' w1 w1' rocks_f rocks_f_nc ltac:(vm_compute; reflexivity) eq_refl eq_refl w1'_same)) as (r' & _ & Hh).
  apply Hh. lia.
Qed.

(** C77: with FxHash every value of 16 bytes or more has such a second value, of the same length. *)
Theorem C77_fxhash :
  ∀ n, 0 < n → ∀ (B : backend n) (HB : BackendOk B), ∀ (k : arr n) (v : bytes), 16 ≤ length v → ∃ v', v' ≠ v ∧ length v' = length v ∧
  (∀ st lg r M D, live B (fx n) idc idc st lg r M → no_collision (fx n) lg → M !! k = Some v →
     ∃ r', out B (fx n) (insert_one idc D None k v') st = ROk r' ∧
       holds B (fx n) idc (fin B (fx n) (insert_one idc D None k v') st) r (<[k := v']> M)) ∧
  (∀ (B' : backend n) (st' : b_st B') r proof,
     out B' (fx n) (verify_inclusion_proof idc r k v' proof) st' = out B' (fx n) (verify_inclusion_proof idc r k v proof) st').
Proof. intros n Hn B HB. exact (fx_overwrites n Hn B). Qed.
Print Assumptions C77_fxhash.
Example C77_fxhash_case : ∃ v', v' ≠ w1 ∧ length v' = 16 ∧ ∃ r',
  out FH (fx 32) (insert_one idc 1 None F1 v') (fs FH) = ROk r' ∧
  holds FH (fx 32) idc (fin FH (fx 32) (insert_one idc 1 None F1 v') (fs FH)) (fr FH) (<[F1 := v']> fM).
Proof.
  destruct (C77_fxhash 32 (Nat.lt_0_succ 31) FH _ F1 w1 (le_n 16)) as (v' & Hne & Hl & Hs & _).
  exists v'. split; [exact Hne|]. split; [exact Hl|]. apply (Hs _ _ _ _ 1 hash_f hash_f_nc). vm_compute. reflexivity.
Qed.

(** C77, with keys of 32 bytes and values of 16 bytes: a pair inserted into an empty tree changes an older root. *)
Theorem C77_refuted :
  ∃ (st : b_st FH) (lg : list (list bytes)) (r k : arr 32) (M : gmap (arr 32) bytes) (v v' : bytes) (r' : arr 32),
  live FH (fx 32) idc idc st lg r M ∧ no_collision (fx 32) lg ∧
  out FH (fx 32) (get_one idc 257 r k) st = ROk (Some v) ∧
  out FH (fx 32) (insert_one idc 257 None k v') st = ROk r' ∧ v ≠ v' ∧
  out FH (fx 32) (get_one idc 257 r k) (fin FH (fx 32) (insert_one idc 257 None k v') st) = ROk (Some v').
Proof.  exact fx_refuted. Qed.
Print Assumptions C77_refuted.

(** C77: with SeaHash every value of 48 bytes or more has a second value, of the same length. *)
Theorem C77_seahash :
  ∀ n, 0 < n → ∀ (B : backend n) (HB : BackendOk B), ∀ (k : arr n) (v : bytes), 48 ≤ length v → ∃ v', v' ≠ v ∧ length v' = length v ∧
  (∀ st lg r M D, live B (sea n) idc idc st lg r M → no_collision (sea n) lg → M !! k = Some v →
     ∃ r', out B (sea n) (insert_one idc D None k v') st = ROk r' ∧
       holds B (sea n) idc (fin B (sea n) (insert_one idc D None k v') st) r (<[k := v']> M)) ∧
  (∀ (B' : backend n) (st' : b_st B') r proof,
     out B' (sea n) (verify_inclusion_proof idc r k v' proof) st' = out B' (sea n) (verify_inclusion_proof idc r k v proof) st').
Proof. intros n Hn B HB. exact (sea_overwrites n Hn B). Qed.
Print Assumptions C77_seahash.
Example C77_seahash_case : ∃ v', v' ≠ x1 ∧ length v' = 48 ∧ ∃ r',
  out FH (sea 32) (insert_one idc 1 None F1 v') (us FH) = ROk r' ∧
  holds FH (sea 32) idc (fin FH (sea 32) (insert_one idc 1 None F1 v') (us FH)) (ur FH) (<[F1 := v']> uM).
Proof.
  destruct (C77_seahash 32 (Nat.lt_0_succ 31) FH _ F1 x1 (le_n 48)) as (v' & Hne & Hl & Hs & _).
  exists v'. split; [exact Hne|]. split; [exact Hl|]. apply (Hs _ _ _ _ 1 hash_u hash_u_nc). vm_compute. reflexivity.
Qed.

(** C77, with SeaHash, keys of 32 bytes and values of 48 bytes. *)
Theorem C77_seahash_refuted :
  ∃ (st : b_st FH) (lg : list (list bytes)) (r k : arr 32) (M : gmap (arr 32) bytes) (v v' : bytes) (r' : arr 32),
  live FH (sea 32) idc idc st lg r M ∧ no_collision (sea 32) lg ∧
  out FH (sea 32) (get_one idc 257 r k) st = ROk (Some v) ∧
  out FH (sea 32) (insert_one idc 257 None k v') st = ROk r' ∧ v ≠ v' ∧
  out FH (sea 32) (get_one idc 257 r k) (fin FH (sea 32) (insert_one idc 257 None k v') st) = ROk (Some v').
Proof.  exact sea_refuted. Qed.
Print Assumptions C77_seahash_refuted.
