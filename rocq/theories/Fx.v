(** * The FxHash hasher: model and collisions
    src/tree_hasher/fx.rs with the crate fxhash 0.2.1 (64-bit targets): a state
    of 64 bits, starting at 0; every word [w] of the input replaces the state [h]
    by [(rotate_left(h, 5) ^ w) * 0x517cc1b727220a95].  [write] takes words of 8
    bytes, then at most one of 4, then single bytes; words are read in the byte
    order of the machine, here little-endian.  The crate is modelled from its
    published source, which is not in this repository. *)
From Coq Require Import Strings.Byte NArith.
From stdpp Require Import prelude countable gmap sorting strings.
From Verif Require Import Model Bits Codec CodecProofs.

Local Open Scope nat_scope.

Definition fx_rotl (h : N) : N := N.lor (N.land (N.shiftl h 5) (N.ones 64)) (N.shiftr h 59).
Definition fx_word (h w : N) : N := (N.lxor (fx_rotl h) w * 0x517cc1b727220a95) mod 2 ^ 64.
Definition word_of (b : bytes) : N := foldr (λ x r, Byte.to_N x + 256 * r)%N 0%N b.
Definition fx_tail (h : N) (b : bytes) : N := foldl (λ h x, fx_word h (Byte.to_N x)) h b.
Fixpoint fx_write (fuel : nat) (h : N) (b : bytes) : N :=
  match fuel with
  | 0 => h
  | S fuel' =>
      if 8 <=? length b then fx_write fuel' (fx_word h (word_of (take 8 b))) (drop 8 b)
      else if 4 <=? length b then fx_tail (fx_word h (word_of (take 4 b))) (drop 4 b)
      else fx_tail h b
  end.
(** [Hasher::new], [update] for each piece, [finalize] (fx.rs:6-30). *)
Definition fx_digest (cs : list bytes) : N := foldl (λ h b, fx_write (S (length b)) h b) 0%N cs.
Definition fx (n : nat) (cs : list bytes) : arr n :=
  match finalize_u64 n (le_bytes 8 (fx_digest cs)) with Ok b => mkarr n b | _ => mkarr n [] end.

(** The adaptor never panics, so the last case does not arise. *)
Lemma finalize_u64_total n value : length value = 8 → ∃ b, finalize_u64 n value = Ok b ∧ length b = n.
Proof.
  intros Hl. unfold finalize_u64, slice_to, copy_prefix. rewrite Hl.
  destruct (8 <=? n) eqn:H8.
  - rewrite replicate_length, H8. eexists. split; [done|].
    apply Nat.leb_le in H8. rewrite app_length, drop_length, replicate_length. lia.
  - apply Nat.leb_gt in H8. assert (n <=? 8 = true) as -> by (apply Nat.leb_le; lia).
    cbn [mbind res_bind]. rewrite replicate_length, take_length, Hl, Nat.leb_refl.
    replace (n `min` 8) with n by lia. rewrite Nat.eqb_refl. eexists. split; [done|].
    rewrite app_length, drop_length, replicate_length, take_length. lia.
Qed.
Lemma fx_finalize n cs : ∃ b, finalize_u64 n (le_bytes 8 (fx_digest cs)) = Ok b ∧ length b = n ∧ fx n cs = mkarr n b.
Proof.
  destruct (finalize_u64_total n (le_bytes 8 (fx_digest cs)) (le_bytes_length 8 _)) as (b & Hb & Hl).
  exists b. split_and!; [done|done|]. unfold fx. by rewrite Hb.
Qed.

(** ** Words of 64 bits *)
Lemma lxor_lt a b w : (a < 2 ^ w → b < 2 ^ w → N.lxor a b < 2 ^ w)%N.
Proof.
  intros Ha Hb. destruct (decide (N.lxor a b = 0%N)) as [->|Hz]; [apply N.neq_0_lt_0; by apply N.pow_nonzero|].
  apply N.log2_lt_pow2; [lia|]. eapply N.le_lt_trans; [apply N.log2_lxor|].
  assert (∀ x, (x < 2 ^ w → 0 < w → N.log2 x < w)%N) as Hlog.
  { intros x Hx Hw. destruct (decide (x = 0%N)) as [->|]; [done|]. by apply N.log2_lt_pow2; [lia|]. }
  destruct (decide (w = 0%N)) as [->|]; [|apply N.max_lub_lt; apply Hlog; lia].
  exfalso. apply Hz. change (2 ^ 0)%N with 1%N in *. replace a with 0%N by lia. replace b with 0%N by lia. done.
Qed.
Lemma fx_rotl_lt h : (h < 2 ^ 64 → fx_rotl h < 2 ^ 64)%N.
Proof.
  intros Hh. unfold fx_rotl. rewrite N.land_ones.
  assert ((N.shiftl h 5 mod 2 ^ 64 < 2 ^ 64)%N) as H1 by (by apply N.mod_lt).
  assert ((N.shiftr h 59 < 2 ^ 64)%N) as H2.
  { rewrite N.shiftr_div_pow2. eapply N.le_lt_trans; [apply N.div_le_upper_bound with (q := h)|exact Hh]; [done|].
    change (2 ^ 59)%N with (576460752303423488)%N. lia. }
  revert H1 H2. generalize (N.shiftl h 5 mod 2 ^ 64)%N, (N.shiftr h 59). intros a b Ha Hb.
  destruct (decide (N.lor a b = 0%N)) as [->|Hz]; [done|].
  apply N.log2_lt_pow2; [lia|]. rewrite N.log2_lor.
  assert (∀ x, (x < 2 ^ 64 → N.log2 x < 64)%N) as Hlog.
  { intros x Hx. destruct (decide (x = 0%N)) as [->|]; [done|]. apply N.log2_lt_pow2; [lia|done]. }
  apply N.max_lub_lt; auto.
Qed.
Lemma fx_word_lt h w : (fx_word h w < 2 ^ 64)%N.
Proof. by apply N.mod_lt. Qed.
Lemma word_of_lt b : (word_of b < 256 ^ N.of_nat (length b))%N.
Proof.
  induction b as [|x b IH]; [done|]. cbn [word_of foldr length]. fold (word_of b).
  rewrite Nat2N.inj_succ, N.pow_succ_r'. pose proof (Byte.to_N_bounded x). lia.
Qed.
Lemma word_of_le_bytes w x : (x < 256 ^ N.of_nat w)%N → word_of (le_bytes w x) = x.
Proof.
  revert x. induction w as [|w IH]; intros x Hx.
  { cbn in *. lia. }
  cbn [le_bytes word_of foldr]. fold (word_of (le_bytes w (x / 256))). rewrite Nat2N.inj_succ, N.pow_succ_r' in Hx.
  rewrite IH by (apply N.div_lt_upper_bound; lia).
  assert (Byte.to_N (byte_of x) = (x mod 256)%N) as ->.
  { unfold byte_of. pose proof (N.mod_lt x 256 ltac:(done)) as Hm.
    destruct (Byte.of_N (x mod 256)) as [y|] eqn:Hy; [by apply Byte.to_of_N in Hy|].
    apply Byte.of_N_None_iff in Hy. lia. }
  symmetry. rewrite N.add_comm. apply N.div_mod. done.
Qed.
Lemma le_bytes_inj w x y : (x < 256 ^ N.of_nat w)%N → (y < 256 ^ N.of_nat w)%N → le_bytes w x = le_bytes w y → x = y.
Proof. intros Hx Hy He. rewrite <- (word_of_le_bytes w x Hx), <- (word_of_le_bytes w y Hy). by rewrite He. Qed.

(** ** A second value with the same hash *)
(** Two states, and a word for each, with the same next state. *)
Lemma fx_word_collide h h' w : fx_word h' (N.lxor (N.lxor (fx_rotl h) (fx_rotl h')) w) = fx_word h w.
Proof.
  unfold fx_word. f_equal. f_equal.
  rewrite <- N.lxor_assoc, (N.lxor_comm (fx_rotl h) (fx_rotl h')), <- N.lxor_assoc, N.lxor_nilpotent, N.lxor_0_l. done.
Qed.
Lemma fx_write_step h b fuel : 8 ≤ length b →
  fx_write (S fuel) h b = fx_write fuel (fx_word h (word_of (take 8 b))) (drop 8 b).
Proof. intros Hb. cbn [fx_write]. apply Nat.leb_le in Hb. by rewrite Hb. Qed.

(** The value [v] with its first word replaced by [w] and its second one adjusted;
    [h]: the state before the value. *)
Definition fx_forge (h w : N) (v : bytes) : bytes :=
  le_bytes 8 w ++
  le_bytes 8 (N.lxor (N.lxor (fx_rotl (fx_word h (word_of (take 8 v)))) (fx_rotl (fx_word h w)))
                (word_of (take 8 (drop 8 v)))) ++ drop 16 v.
Lemma fx_forge_length h w v : 16 ≤ length v → length (fx_forge h w v) = length v.
Proof. intros Hv. unfold fx_forge. rewrite !app_length, !le_bytes_length, drop_length. lia. Qed.
Lemma word8_lt v : 8 ≤ length v → (word_of (take 8 v) < 2 ^ 64)%N.
Proof. intros Hv. pose proof (word_of_lt (take 8 v)) as Hl. rewrite take_length in Hl. by replace (8 `min` length v) with 8 in Hl by lia. Qed.
Lemma fx_forge_same h w v : 16 ≤ length v → (w < 2 ^ 64)%N →
  fx_write (S (length (fx_forge h w v))) h (fx_forge h w v) = fx_write (S (length v)) h v.
Proof.
  intros Hv Hw. rewrite fx_forge_length by done.
  destruct (length v) as [|[|m]] eqn:Hl; [lia|lia|].
  rewrite (fx_write_step h v), (fx_write_step _ (drop 8 v)) by (rewrite ?drop_length; lia).
  rewrite (fx_write_step h (fx_forge h w v)) by (rewrite fx_forge_length; lia).
  unfold fx_forge.
  rewrite take_app_alt, drop_app_alt by (by rewrite le_bytes_length).
  rewrite fx_write_step by (rewrite app_length, le_bytes_length; lia).
  rewrite take_app_alt, drop_app_alt by (by rewrite le_bytes_length).
  rewrite (word_of_le_bytes 8 w) by done. rewrite word_of_le_bytes.
  - rewrite drop_drop. by rewrite fx_word_collide.
  - apply (lxor_lt _ _ 64); [apply (lxor_lt _ _ 64); apply fx_rotl_lt, fx_word_lt|].
    apply word8_lt. rewrite drop_length. lia.
Qed.
Lemma fx_forge_ne h w v : 16 ≤ length v → (w < 2 ^ 64)%N → w ≠ word_of (take 8 v) → fx_forge h w v ≠ v.
Proof.
  intros Hv Hw Hne He. apply Hne. rewrite <- He at 1. unfold fx_forge.
  rewrite take_app_alt by (by rewrite le_bytes_length). by rewrite word_of_le_bytes.
Qed.
