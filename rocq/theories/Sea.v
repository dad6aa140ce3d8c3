(** * The SeaHash hasher: model and collisions
    src/tree_hasher/seahasher.rs with the streaming hasher of the crate seahash 4.1:
    four lanes of 64 bits, used in turn; a word [x] of the input replaces the oldest lane
    [a] by [diffuse(a ^ x)].  The input is buffered until there are eight bytes, so only
    the concatenation of the pieces matters.  The crate is modelled from its published
    source, which is not in this repository; [sea_vector] is the test vector of its
    documentation. *)
From Coq Require Import Strings.Byte NArith.
From stdpp Require Import prelude countable gmap sorting strings.
From Verif Require Import Model Bits Spec Util Logic Live Safe Claims Scenario Codec CodecProofs Fx Forge.

Local Open Scope nat_scope.

Definition sea_mul (x : N) : N := (x * 0x6eed0e9da4d94a4f) mod 2 ^ 64.
Definition sea_diffuse (x : N) : N :=
  let x := sea_mul x in
  let x := N.lxor x (N.shiftr (N.shiftr x 32) (N.shiftr x 60)) in
  sea_mul x.
(** The lanes, oldest first, the number of bytes in them, and the bytes not yet used (fewer than eight). *)
Record sea_st := Sea { sea_a : N; sea_b : N; sea_c : N; sea_d : N; sea_written : N; sea_tail : bytes }.
Definition sea_new : sea_st :=
  Sea 0x16f11fe89b0d677c 0xb480a793d8e6c86c 0x6fe2e5aaf078ebc9 0x14f994a4c5259381 0 [].
Definition sea_push (s : sea_st) (x : N) : sea_st :=
  Sea (sea_b s) (sea_c s) (sea_d s) (sea_diffuse (N.lxor (sea_a s) x)) (sea_written s + 8) [].
Definition sea_keep (s : sea_st) (t : bytes) : sea_st := Sea (sea_a s) (sea_b s) (sea_c s) (sea_d s) (sea_written s) t.
(** Whole words, then the rest. *)
Fixpoint sea_words (fuel : nat) (s : sea_st) (b : bytes) : sea_st :=
  match fuel with
  | 0 => s
  | S fuel' => if 8 <=? length b then sea_words fuel' (sea_push s (word_of (take 8 b))) (drop 8 b) else sea_keep s b
  end.
(** [write]: fill up the buffer first. *)
Definition sea_write (s : sea_st) (b : bytes) : sea_st :=
  let copied := (8 - length (sea_tail s)) `min` length b in
  if copied + length (sea_tail s) <? 8 then sea_keep s (sea_tail s ++ take copied b)
  else sea_words (S (length b)) (sea_push s (word_of (sea_tail s ++ take copied b))) (drop copied b).
Definition sea_finish (s : sea_st) : N :=
  let a := match sea_tail s with [] => sea_a s | t => sea_diffuse (N.lxor (sea_a s) (word_of t)) end in
  sea_diffuse (N.lxor (N.lxor (N.lxor (N.lxor a (sea_b s)) (sea_c s)) (sea_d s)) (sea_written s + N.of_nat (length (sea_tail s)))).
(** [Hasher::new], [update] for each piece, [finalize] (seahasher.rs:6-31). *)
Definition sea_digest (cs : list bytes) : N := sea_finish (foldl sea_write sea_new cs).
Definition sea (n : nat) (cs : list bytes) : arr n :=
  match finalize_u64 n (le_bytes 8 (sea_digest cs)) with Ok b => mkarr n b | _ => mkarr n [] end.
Lemma sea_finalize n cs : ∃ b, finalize_u64 n (le_bytes 8 (sea_digest cs)) = Ok b ∧ length b = n ∧ sea n cs = mkarr n b.
Proof.
  destruct (finalize_u64_total n (le_bytes 8 (sea_digest cs)) (le_bytes_length 8 _)) as (b & Hb & Hl).
  exists b. split_and!; [done|done|]. unfold sea. by rewrite Hb.
Qed.

Definition to_be : bytes := [x74; x6f; x20; x62; x65; x20; x6f; x72; x20; x6e; x6f; x74; x20; x74; x6f; x20; x62; x65].
Example sea_vector : sea_digest [to_be] = 1988685042348123509%N.
Proof. vm_compute. reflexivity. Qed.

Lemma sea_diffuse_lt x : (sea_diffuse x < 2 ^ 64)%N.
Proof. by apply N.mod_lt. Qed.
Lemma sea_words_tail fuel s b : length b < fuel → length (sea_tail (sea_words fuel s b)) < 8.
Proof.
  revert s b. induction fuel as [|fuel IH]; intros s b Hb; [lia|]. cbn [sea_words].
  destruct (Nat.leb_spec 8 (length b)) as [H8|H8]; [|done]. apply IH. rewrite drop_length. lia.
Qed.
Lemma sea_write_tail s b : length (sea_tail s) < 8 → length (sea_tail (sea_write s b)) < 8.
Proof.
  intros Hs. unfold sea_write. set (c := _ `min` _).
  destruct (Nat.ltb_spec (c + length (sea_tail s)) 8) as [Hc|Hc].
  - cbn [sea_keep sea_tail]. rewrite app_length, take_length. subst c. lia.
  - apply sea_words_tail. rewrite drop_length. lia.
Qed.
Lemma sea_all_tail cs s : length (sea_tail s) < 8 → length (sea_tail (foldl sea_write s cs)) < 8.
Proof. revert s. induction cs as [|c cs IH]; intros s Hs; [done|]. cbn [foldl]. by apply IH, sea_write_tail. Qed.

(** ** A second value with the same hash *)
(** Two values of a lane, and a word for each, with the same next value. *)
Lemma sea_lane_collide a a' x : N.lxor a' (N.lxor (N.lxor a a') x) = N.lxor a x.
Proof. rewrite <- N.lxor_assoc, (N.lxor_comm a a'), <- N.lxor_assoc, N.lxor_nilpotent, N.lxor_0_l. done. Qed.
Lemma sea_words_step fuel s b : 8 ≤ length b →
  sea_words (S fuel) s b = sea_words fuel (sea_push s (word_of (take 8 b))) (drop 8 b).
Proof. intros Hb. cbn [sea_words]. apply Nat.leb_le in Hb. by rewrite Hb. Qed.
Lemma sea_words_app fuel s b c : length b = 8 → sea_words (S fuel) s (b ++ c) = sea_words fuel (sea_push s (word_of b)) c.
Proof. intros Hb. rewrite sea_words_step by (rewrite app_length; lia). by rewrite take_app_alt, drop_app_alt by done. Qed.
(** The fifth word after another first one. *)
Definition sea_adjust (a x0 w x4 : N) : N :=
  N.lxor (N.lxor (sea_diffuse (N.lxor a x0)) (sea_diffuse (N.lxor a w))) x4.
Lemma sea_five fuel s b0 b1 b2 b3 b4 c w : length b0 = 8 → length b1 = 8 → length b2 = 8 → length b3 = 8 → length b4 = 8 →
  (w < 2 ^ 64)%N →
  sea_words (5 + fuel) s (le_bytes 8 w ++ b1 ++ b2 ++ b3 ++ le_bytes 8 (sea_adjust (sea_a s) (word_of b0) w (word_of b4)) ++ c) =
  sea_words (5 + fuel) s (b0 ++ b1 ++ b2 ++ b3 ++ b4 ++ c).
Proof.
  intros H0 H1 H2 H3 H4 Hw. cbn [Nat.add]. rewrite !sea_words_app by (done || apply le_bytes_length).
  f_equal. rewrite (word_of_le_bytes 8 w) by done. rewrite word_of_le_bytes.
  2:{ unfold sea_adjust. apply (lxor_lt _ _ 64); [apply (lxor_lt _ _ 64); apply sea_diffuse_lt|].
      pose proof (word_of_lt b4) as Hl. by rewrite H4 in Hl. }
  unfold sea_push. cbn [sea_a sea_b sea_c sea_d sea_written sea_tail]. f_equal. f_equal. apply sea_lane_collide.
Qed.

(** The value [v] with the first whole word after the buffer is full replaced by [w], and the fifth adjusted; [s]: the state before the value. *)
Definition sea_forge (s : sea_st) (w : N) (v : bytes) : bytes :=
  let q := 8 - length (sea_tail s) in
  let s1 := sea_push s (word_of (sea_tail s ++ take q v)) in
  let u := drop q v in
  take q v ++ le_bytes 8 w ++ take 8 (drop 8 u) ++ take 8 (drop 16 u) ++ take 8 (drop 24 u) ++
  le_bytes 8 (sea_adjust (sea_a s1) (word_of (take 8 u)) w (word_of (take 8 (drop 32 u)))) ++ drop 40 u.
Lemma five_words (u : bytes) : u = take 8 u ++ take 8 (drop 8 u) ++ take 8 (drop 16 u) ++ take 8 (drop 24 u) ++ take 8 (drop 32 u) ++ drop 40 u.
Proof.
  rewrite <- (take_drop 8 u) at 1. f_equal. rewrite <- (take_drop 8 (drop 8 u)) at 1. f_equal. rewrite drop_drop. cbn [Nat.add].
  rewrite <- (take_drop 8 (drop 16 u)) at 1. f_equal. rewrite drop_drop. cbn [Nat.add].
  rewrite <- (take_drop 8 (drop 24 u)) at 1. f_equal. rewrite drop_drop. cbn [Nat.add].
  rewrite <- (take_drop 8 (drop 32 u)) at 1. f_equal. by rewrite drop_drop.
Qed.
Lemma sea_forge_length s w v : 48 ≤ length v → length (sea_forge s w v) = length v.
Proof. intros Hv. unfold sea_forge. rewrite !app_length, !le_bytes_length, !take_length, !drop_length. lia. Qed.
Lemma sea_write_full s v : length (sea_tail s) < 8 → 8 ≤ length v → let q := 8 - length (sea_tail s) in
  sea_write s v = sea_words (S (length v)) (sea_push s (word_of (sea_tail s ++ take q v))) (drop q v).
Proof.
  intros Hs Hv q. unfold sea_write. fold q. replace (q `min` length v) with q by lia.
  by destruct (Nat.ltb_spec (q + length (sea_tail s)) 8); [lia|].
Qed.
Lemma sea_forge_same s w v : length (sea_tail s) < 8 → 48 ≤ length v → (w < 2 ^ 64)%N →
  sea_write s (sea_forge s w v) = sea_write s v.
Proof.
  intros Hs Hv Hw. rewrite !sea_write_full by (rewrite ?sea_forge_length; lia). rewrite sea_forge_length by done.
  unfold sea_forge. set (q := 8 - length (sea_tail s)). set (u := drop q v).
  assert (length (take q v) = q) as Hq by (rewrite take_length; lia).
  rewrite take_app_alt, drop_app_alt by (symmetry; exact Hq).
  set (s1 := sea_push s _). rewrite (five_words u) at 7.
  assert (40 ≤ length u) as Hu by (subst u; rewrite drop_length; lia).
  replace (S (length v)) with (5 + (length v - 4)) by lia.
  apply sea_five; rewrite ?take_length, ?drop_length; lia.
Qed.
Lemma sea_forge_ne s w v : 48 ≤ length v → (w < 2 ^ 64)%N →
  w ≠ word_of (take 8 (drop (8 - length (sea_tail s)) v)) → sea_forge s w v ≠ v.
Proof.
  intros Hv Hw Hne He. apply Hne. rewrite <- He at 1. unfold sea_forge. set (q := 8 - length (sea_tail s)).
  rewrite drop_app_alt by (rewrite take_length; lia). rewrite take_app_alt by (by rewrite le_bytes_length).
  by rewrite word_of_le_bytes.
Qed.

Lemma sea_second_value n (k : arr n) (v : bytes) : 48 ≤ length v →
  ∃ v', v' ≠ v ∧ length v' = length v ∧ sea n (data_in k v') = sea n (data_in k v).
Proof.
  intros Hv. set (s := foldl sea_write sea_new [[x64]; (k : bytes)]).
  assert (length (sea_tail s) < 8) as Hs by (apply sea_all_tail; cbn; lia).
  set (x := word_of (take 8 (drop (8 - length (sea_tail s)) v))). set (w := N.lxor x 1).
  assert (x < 2 ^ 64)%N as Hx by (apply word8_lt; rewrite drop_length; lia).
  assert (w < 2 ^ 64)%N as Hw by (by apply (lxor_lt _ _ 64)).
  exists (sea_forge s w v). split_and!.
  - apply sea_forge_ne; [done|done|]. fold x. unfold w. intros Hwx.
    assert (N.lxor (N.lxor x 1) x = 0%N) as Hz by (rewrite Hwx; apply N.lxor_nilpotent).
    rewrite (N.lxor_comm x 1), N.lxor_assoc, N.lxor_nilpotent, N.lxor_0_r in Hz. done.
  - by apply sea_forge_length.
  - unfold sea. assert (sea_digest (data_in k (sea_forge s w v)) = sea_digest (data_in k v)) as ->; [|done].
    unfold data_in, sea_digest. cbn [foldl]. f_equal. exact (sea_forge_same s w v Hs Hv Hw).
Qed.

Lemma sea_overwrites n (Hn : 0 < n) (B : backend n) {HB : BackendOk B} (k : arr n) (v : bytes) : 48 ≤ length v →
  ∃ v', v' ≠ v ∧ length v' = length v ∧
  (∀ st lg r M D, live B (sea n) idc idc st lg r M → no_collision (sea n) lg → M !! k = Some v →
     ∃ r', out B (sea n) (insert_one idc D None k v') st = ROk r' ∧
       holds B (sea n) idc (fin B (sea n) (insert_one idc D None k v') st) r (<[k := v']> M)) ∧
  (∀ (B' : backend n) (st' : b_st B') r proof,
     out B' (sea n) (verify_inclusion_proof idc r k v' proof) st' = out B' (sea n) (verify_inclusion_proof idc r k v proof) st').
Proof.
  intros Hv. destruct (sea_second_value n k v Hv) as (v' & Hne & Hl & Heq). exists v'. split; [done|]. split; [done|]. split.
  - intros st lg r M D Hlive Hc Hk.
    exact (collision_overwrites Hn B (sea n) idc idc idc_ok st lg r M D k v v' v v' Hlive Hc Hk eq_refl eq_refl (eq_sym Heq)).
  - intros B' st' r proof. exact (collision_proves (sea n) idc B' st' k v v' v v' r proof eq_refl eq_refl (eq_sym Heq)).
Qed.

(** Only the concatenation of the pieces matters, so the prefix bytes of the tree are all that separates data, leaves and branches. *)
Lemma sea_words_fuel f f' s b : length b < f → length b < f' → sea_words f s b = sea_words f' s b.
Proof.
  revert f' s b. induction f as [|f IH]; intros [|f'] s b Hf Hf'; [lia|lia|lia|]. cbn [sea_words].
  destruct (Nat.leb_spec 8 (length b)); [|done]. apply IH; rewrite drop_length; lia.
Qed.
Lemma sea_write_words s b : length (sea_tail s) < 8 →
  sea_write s b = sea_words (S (length (sea_tail s) + length b)) s (sea_tail s ++ b).
Proof.
  intros Hs. unfold sea_write. set (t := sea_tail s) in *.
  destruct (Nat.leb_spec 8 (length t + length b)) as [H8|H8].
  - rewrite (sea_words_step _ s) by (rewrite app_length; lia). replace ((8 - length t) `min` length b) with (8 - length t) by lia.
    destruct (Nat.ltb_spec (8 - length t + length t) 8); [lia|].
    rewrite take_app_ge, drop_app_ge by lia. apply sea_words_fuel; rewrite drop_length; lia.
  - replace ((8 - length t) `min` length b) with (length b) by lia. cbn [sea_words]. rewrite app_length.
    destruct (Nat.leb_spec 8 (length t + length b)); [lia|].
    destruct (Nat.ltb_spec (length b + length t) 8); [|lia]. by rewrite firstn_all.
Qed.
Lemma sea_words_write f s b c : length b < f → sea_write (sea_words f s b) c = sea_words (f + length c) s (b ++ c).
Proof.
  revert s b. induction f as [|f IH]; intros s b Hf; [lia|]. cbn [sea_words Nat.add].
  destruct (Nat.leb_spec 8 (length b)) as [H8|H8].
  - rewrite IH by (rewrite drop_length; lia). rewrite app_length.
    destruct (Nat.leb_spec 8 (length b + length c)); [|lia]. by rewrite take_app_le, drop_app_le by lia.
  - rewrite sea_write_words by done. cbn [sea_keep sea_tail].
    change (if 8 <=? length (b ++ c) then sea_words (f + length c) (sea_push s (word_of (take 8 (b ++ c)))) (drop 8 (b ++ c)) else sea_keep s (b ++ c))
      with (sea_words (S (f + length c)) s (b ++ c)).
    rewrite (sea_words_fuel (S (f + length c)) (S (length b + length c))) by (rewrite app_length; lia).
    reflexivity.
Qed.
Lemma sea_write_app s b c : length (sea_tail s) < 8 → sea_write (sea_write s b) c = sea_write s (b ++ c).
Proof.
  intros Hs. rewrite (sea_write_words s b), (sea_write_words s (b ++ c)) by done. rewrite sea_words_write by (rewrite app_length; lia).
  rewrite <- app_assoc. apply sea_words_fuel; rewrite !app_length; lia.
Qed.
Lemma sea_concat cs : sea_digest cs = sea_digest [concat cs].
Proof.
  unfold sea_digest. f_equal. cbn [foldl]. assert (length (sea_tail sea_new) < 8) as Hs by (cbn; lia).
  revert Hs. generalize sea_new. induction cs as [|c cs IH]; intros s Hs.
  - cbn. unfold sea_write. rewrite Nat.min_0_r. cbn [Nat.add take]. destruct (Nat.ltb_spec (length (sea_tail s)) 8); [|lia].
    rewrite app_nil_r. by destruct s.
  - cbn [foldl concat]. rewrite IH by (by apply sea_write_tail). by apply sea_write_app.
Qed.
