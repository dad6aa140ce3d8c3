(** * BLAKE2b
    The hasher of the features [blake2-rfc] (src/tree_hasher/blake2b_rfc.rs) and [blake2b] (crate
    blake2, through src/traits.rs:20-47), from RFC 7693.  A block is compressed only when more
    input follows, because the last one is marked. *)
From Coq Require Import Strings.Byte NArith.
From stdpp Require Import prelude countable gmap sorting strings.
From Verif Require Import Model Bits Codec CodecProofs Fx Sea Hashers.

Local Open Scope nat_scope.

(** ** Buffered input, with the last block kept
    [step a t b]: the block [b], [t] bytes written up to its end. *)
Section Lazy.
  Context {A : Type} (w : nat) (step : A → N → bytes → A).
  Definition lz_push (s : buf) : buf :=
    let t := (buf_len s + N.of_nat w)%N in Buf (step (buf_st s) t (buf_tail s)) t [].
  (** The buffer is full and more follows. *)
  Fixpoint lz_rest (fuel : nat) (s : buf) (b : bytes) : buf :=
    match fuel with
    | 0 => s
    | S fuel' =>
        match b with
        | [] => s
        | _ => let s' := lz_push s in lz_rest fuel' (Buf (buf_st s') (buf_len s') (take w b)) (drop w b)
        end
    end.
  (** [update]: fill up the buffer first. *)
  Definition lz_write (s : buf) (b : bytes) : buf :=
    let copied := (w - length (buf_tail s)) `min` length b in
    lz_rest (S (length b)) (Buf (buf_st s) (buf_len s) (buf_tail s ++ take copied b)) (drop copied b).

  (** The same, block by block. *)
  Fixpoint lz_run (fuel : nat) (a : A) (t : N) (b : bytes) : buf :=
    match fuel with
    | 0 => Buf a t b
    | S fuel' =>
        if w <? length b then lz_run fuel' (step a (t + N.of_nat w)%N (take w b)) (t + N.of_nat w)%N (drop w b)
        else Buf a t b
    end.
  Context (Hw : 0 < w).
  Lemma lz_run_fuel f f' a t b : length b ≤ f → length b ≤ f' → lz_run f a t b = lz_run f' a t b.
  Proof using Hw.
    revert f' a t b. induction f as [|f IH]; intros [|f'] a t b Hf Hf'; cbn [lz_run]; try done.
    - destruct (Nat.ltb_spec w (length b)); [lia|done].
    - destruct (Nat.ltb_spec w (length b)); [lia|done].
    - destruct (Nat.ltb_spec w (length b)); [|done]. apply IH; rewrite drop_length; lia.
  Qed.
  Lemma lz_run_tail f a t b : length b ≤ f → length (buf_tail (lz_run f a t b)) ≤ w.
  Proof using Hw.
    revert a t b. induction f as [|f IH]; intros a t b Hf; cbn [lz_run]; [cbn; lia|].
    destruct (Nat.ltb_spec w (length b)); [|done]. apply IH. rewrite drop_length. lia.
  Qed.
  Lemma lz_run_step f a t b : w < length b → length b ≤ S f →
    lz_run (S f) a t b = lz_run f (step a (t + N.of_nat w)%N (take w b)) (t + N.of_nat w)%N (drop w b).
  Proof using. intros Hb _. cbn [lz_run]. apply Nat.ltb_lt in Hb. by rewrite Hb. Qed.
  Lemma lz_rest_run f (s : buf) b : length b < f → length (buf_tail s) = w →
    lz_rest f s b = lz_run (w + length b) (buf_st s) (buf_len s) (buf_tail s ++ b).
  Proof using Hw.
    revert s b. induction f as [|f IH]; intros s b Hf Hs; [lia|]. destruct b as [|x b].
    - cbn [lz_rest]. rewrite app_nil_r, Nat.add_0_r. destruct w as [|w'] eqn:Ew; [lia|]. cbn [lz_run]. rewrite <- Ew in *.
      destruct (Nat.ltb_spec w (length (buf_tail s))); [lia|]. by destruct s.
    - cbn [lz_rest]. set (b' := x :: b) in *. set (s' := lz_push s).
      assert (length b' = S (length b)) as Hb' by done.
      replace (w + length b') with (S (w + length b)) by lia.
      rewrite lz_run_step by (rewrite app_length; lia).
      rewrite take_app_alt, drop_app_alt by done.
      destruct (decide (length b' ≤ w)) as [Hle|Hgt].
      + rewrite (drop_ge b') by lia. rewrite (firstn_all2 b') by lia.
        destruct f as [|f]; [lia|]. cbn [lz_rest].
        destruct (w + length b) as [|q] eqn:Eq; [lia|]. cbn [lz_run].
        destruct (Nat.ltb_spec w (length b')); [lia|done].
      + rewrite IH by (cbn [buf_tail]; rewrite ?drop_length, ?take_length; lia). cbn [buf_st buf_len buf_tail].
        rewrite take_drop. subst s'. cbn [lz_push buf_st buf_len]. apply lz_run_fuel; rewrite ?drop_length; lia.
  Qed.
  Lemma lz_write_run (s : buf) b : length (buf_tail s) ≤ w →
    lz_write s b = lz_run (w + length b) (buf_st s) (buf_len s) (buf_tail s ++ b).
  Proof using Hw.
    intros Hs. unfold lz_write. set (c := _ `min` _). destruct (decide (c = length b)) as [Hc|Hc].
    - rewrite (drop_ge b), (firstn_all2 b) by lia. cbn [lz_rest]. destruct (w + length b) as [|q] eqn:Eq; [lia|]. cbn [lz_run].
      rewrite app_length. destruct (Nat.ltb_spec w (length (buf_tail s) + length b)); [lia|done].
    - assert (c = w - length (buf_tail s)) as Hc' by lia.
      rewrite lz_rest_run; cbn [buf_tail buf_st buf_len]; [|rewrite drop_length; lia|rewrite app_length, take_length; lia].
      rewrite <- app_assoc, take_drop. apply lz_run_fuel; rewrite app_length, ?drop_length; lia.
  Qed.
  Lemma lz_run_write f a t b c : length b ≤ f →
    lz_write (lz_run f a t b) c = lz_run (f + w + length c) a t (b ++ c).
  Proof using Hw.
    revert a t b. induction f as [|f IH]; intros a t b Hf.
    - destruct b; [|cbn in Hf; lia]. cbn [lz_run]. rewrite lz_write_run by (cbn; lia). done.
    - destruct (Nat.ltb_spec w (length b)) as [Hl|Hl].
      + rewrite lz_run_step by lia. rewrite IH by (rewrite drop_length; lia).
        replace (S f + w + length c) with (S (f + w + length c)) by lia.
        rewrite lz_run_step by (rewrite app_length; lia). by rewrite take_app_le, drop_app_le by lia.
      + cbn [lz_run]. destruct (Nat.ltb_spec w (length b)); [lia|].
        rewrite lz_write_run by done. cbn [buf_st buf_len buf_tail]. apply lz_run_fuel; rewrite app_length; lia.
  Qed.
  Lemma lz_concat a cs : foldl lz_write (buf_new a) cs = lz_write (buf_new a) (concat cs).
  Proof using Hw.
    assert (∀ cs (s : buf), length (buf_tail s) ≤ w → foldl lz_write s cs = lz_write s (concat cs)) as Hg.
    { clear cs. induction cs as [|c cs IH]; intros s Hs.
      - cbn [foldl concat]. rewrite lz_write_run, app_nil_r by done. cbn [length].
        rewrite Nat.add_0_r. destruct w as [|w'] eqn:Ew; [lia|]. cbn [lz_run]. rewrite <- Ew in *.
        destruct (Nat.ltb_spec w (length (buf_tail s))); [lia|]. by destruct s.
      - cbn [foldl concat]. rewrite IH.
        2:{ rewrite lz_write_run by done. apply lz_run_tail. rewrite app_length. lia. }
        rewrite (lz_write_run s c), (lz_write_run s (c ++ concat cs)) by done.
        rewrite lz_run_write by (rewrite app_length; lia). rewrite <- app_assoc.
        apply lz_run_fuel; rewrite !app_length; lia. }
    apply Hg. cbn. lia.
  Qed.
End Lazy.

(** ** The compression function (RFC 7693, 3.1 and 3.2) *)
Definition bl_iv : list N := [
  0x6a09e667f3bcc908; 0xbb67ae8584caa73b; 0x3c6ef372fe94f82b; 0xa54ff53a5f1d36f1;
  0x510e527fade682d1; 0x9b05688c2b3e6c1f; 0x1f83d9abfb41bd6b; 0x5be0cd19137e2179]%N.
Definition bl_sigma : list (list nat) := [
  [0; 1; 2; 3; 4; 5; 6; 7; 8; 9; 10; 11; 12; 13; 14; 15];
  [14; 10; 4; 8; 9; 15; 13; 6; 1; 12; 0; 2; 11; 7; 5; 3];
  [11; 8; 12; 0; 5; 2; 15; 13; 10; 14; 3; 6; 7; 1; 9; 4];
  [7; 9; 3; 1; 13; 12; 11; 14; 2; 6; 5; 10; 4; 0; 15; 8];
  [9; 0; 5; 7; 2; 4; 10; 15; 14; 1; 11; 12; 6; 8; 3; 13];
  [2; 12; 6; 10; 0; 11; 8; 3; 4; 13; 7; 5; 15; 14; 1; 9];
  [12; 5; 1; 15; 14; 13; 4; 10; 0; 7; 6; 3; 9; 2; 8; 11];
  [13; 11; 7; 14; 12; 1; 3; 9; 5; 0; 15; 4; 8; 6; 2; 10];
  [6; 15; 14; 9; 11; 3; 0; 8; 12; 2; 13; 7; 1; 4; 10; 5];
  [10; 2; 8; 4; 7; 6; 1; 5; 15; 11; 9; 14; 3; 12; 13; 0]].
Definition rotr64 (x r : N) : N := rotl64 x (64 - r).
Definition bl_mix (m : list N) (a b c d : nat) (v : list N) (xy : nat * nat) : list N :=
  let va := w64 (lane v a + lane v b + lane m xy.1) in
  let vd := rotr64 (N.lxor (lane v d) va) 32 in
  let vc := w64 (lane v c + vd) in
  let vb := rotr64 (N.lxor (lane v b) vc) 24 in
  let va := w64 (va + vb + lane m xy.2) in
  let vd := rotr64 (N.lxor vd va) 16 in
  let vc := w64 (vc + vd) in
  let vb := rotr64 (N.lxor vb vc) 63 in
  <[a := va]> (<[b := vb]> (<[c := vc]> (<[d := vd]> v))).
Definition bl_round (m : list N) (v : list N) (s : list nat) : list N :=
  let p i := (nth (2 * i) s 0, nth (2 * i + 1) s 0) in
  let v := bl_mix m 0 4 8 12 v (p 0) in
  let v := bl_mix m 1 5 9 13 v (p 1) in
  let v := bl_mix m 2 6 10 14 v (p 2) in
  let v := bl_mix m 3 7 11 15 v (p 3) in
  let v := bl_mix m 0 5 10 15 v (p 4) in
  let v := bl_mix m 1 6 11 12 v (p 5) in
  let v := bl_mix m 2 7 8 13 v (p 6) in
  bl_mix m 3 4 9 14 v (p 7).
(** [f]: the mark of the last block. *)
Definition bl_compress (f : N) (h : list N) (t : N) (b : bytes) : list N :=
  let m := (λ i, word_of (take 8 (drop (8 * i) b))) <$> seq 0 16 in
  let v := h ++ bl_iv in
  let v := <[12 := N.lxor (lane v 12) (w64 t)]> (<[13 := N.lxor (lane v 13) (N.shiftr t 64)]> (<[14 := N.lxor (lane v 14) f]> v)) in
  let v := foldl (bl_round m) v (bl_sigma ++ take 2 bl_sigma) in
  (λ i, N.lxor (lane h i) (N.lxor (lane v i) (lane v (i + 8)))) <$> seq 0 8.
Notation bl_size := 128.
Definition bl_write := lz_write bl_size (bl_compress 0).
Definition bl_init (nn : nat) : list N :=
  match bl_iv with a :: r => N.lxor a (N.lxor 0x01010000 (N.of_nat nn)) :: r | [] => [] end.
Definition bl_finish (s : buf) : bytes :=
  concat (le_bytes 8 <$> bl_compress (N.ones 64) (buf_st s) (buf_total s) (buf_tail s ++ replicate (bl_size - length (buf_tail s)) x00)).
(** A digest of [nn] bytes. *)
Definition bl_digest (nn : nat) (cs : list bytes) : bytes := take nn (bl_finish (foldl bl_write (buf_new (bl_init nn)) cs)).
(** [Blake2bHasher] (blake2b_rfc.rs:8-29); [blake2::Blake2b512] through [Digest] (traits.rs:35-47). *)
Definition blake2b_rfc (n : nat) (cs : list bytes) : res bytes :=
  if (1 <=? n) && (n <=? 64) then finalize_blake2b n (bl_digest n cs) else Pan.
Definition blake2b512 (n : nat) (cs : list bytes) : res bytes := finalize_digest n (bl_digest 64 cs).
Example blake2b_vector : bl_digest 32 [abc] =
  [xbd; xdd; x81; x3c; x63; x42; x39; x72; x31; x71; xef; x3f; xee; x98; x57; x9b; x94; x96; x4e; x3b; xb1; xcb; x3e; x42; x72; x62; xc8; xc0; x68; xd5; x23; x19].
Proof. vm_compute. reflexivity. Qed.
Example blake2b_blocks : bl_digest 64 [replicate 128 x61; replicate 130 x61] =
  [x8b; x2f; x86; x5c; x40; x67; x48; x49; x94; xce; xfb; xd2; xe7; xef; xa9; xa0; x27; xf6; xe6; xcd; x96; x5f; x1d; xf2; x9b; x6b; x32; x28; x93; x76; xed; x60; xff; xb3; x91; xa6; x7a; x3a; xb1; xaa; x77; x00; x4c; xce; xff; x5c; xa3; x13; xf8; x75; xf7; xad; x79; x5d; x2c; x7e; xaa; xe0; xf7; x2e; x9c; x88; x03; x80].
Proof. vm_compute. reflexivity. Qed.
Example blake2b_full_block : bl_digest 64 [replicate 100 x61; replicate 28 x61] =
  [xfc; x6c; x71; xf6; x88; xf4; x3e; xa7; xd6; x08; x17; x47; x88; x08; xf3; xca; xc7; x53; xe6; x15; x71; x86; x5c; x95; xad; xbc; x2d; x91; x22; xc9; x43; xa7; x6b; x92; xc2; xcb; x10; x47; xef; x3f; xe7; xbf; x6e; x43; x6e; xc1; xd0; xa9; x9a; x9e; x5b; x21; x67; x80; xbf; x7f; xed; x9d; x7c; xa9; x1d; x3a; x8f; x3b].
Proof. vm_compute. reflexivity. Qed.
(** Keccak, squeezed for more than one block (SHAKE256). *)
Example shake_vector : drop 130 (kc_digest x1f [abc] 200) =
  [xd7; xec; x71; xa7; xcc; x29; xcf; x0e; xa6; x10; xee; xff; x1a; x58; x82; x90; xa5; x30; x00; xfa; xa7; x99; x32; xbe; xce; xc0; xbd; x3c; xd0; xb3; x3a; x7e; x5d; x39; x7f; xed; x1a; xda; x94; x42; xb9; x99; x03; xf4; xdc; xfd; x85; x59; xed; x39; x50; xfa; xf4; x0f; xe6; xf3; xb5; xd7; x10; xed; x3b; x67; x75; x13; x77; x1a; xf6; xbf; xe1; x19].
Proof. vm_compute. reflexivity. Qed.

Lemma bl_finish_length s : length (bl_finish s) = 64.
Proof. unfold bl_finish, bl_compress. cbn [seq fmap list_fmap concat]. rewrite !app_length, !le_bytes_length. done. Qed.
Lemma bl_digest_length nn cs : nn ≤ 64 → length (bl_digest nn cs) = nn.
Proof. intros Hn. unfold bl_digest. rewrite take_length, bl_finish_length. lia. Qed.
Theorem blake_length n cs :
  (1 ≤ n ≤ 64 → blake2b_rfc n cs = Ok (bl_digest n cs) ∧ length (bl_digest n cs) = n) ∧
  (¬ (1 ≤ n ≤ 64) → blake2b_rfc n cs = Pan) ∧
  blake2b512 n cs = Ok (resize n x00 (bl_digest 64 cs)) ∧ length (bl_digest 64 cs) = 64.
Proof.
  split; [|split; [|split; [apply finalize_digest_spec|by apply bl_digest_length]]].
  - intros [H1 H2]. split; [|by apply bl_digest_length].
    unfold blake2b_rfc. apply Nat.leb_le in H1 as ->. apply Nat.leb_le in H2 as H3. rewrite H3. cbn [andb].
    unfold finalize_blake2b. rewrite copy_prefix_ok by (try apply bl_digest_length; lia). by rewrite Nat.sub_diag, app_nil_r.
  - intros Hn. unfold blake2b_rfc. destruct (Nat.leb_spec 1 n), (Nat.leb_spec n 64); cbn [andb]; done || lia.
Qed.
Theorem blake_concat n cs : blake2b_rfc n cs = blake2b_rfc n [concat cs] ∧ blake2b512 n cs = blake2b512 n [concat cs].
Proof.
  unfold blake2b_rfc, blake2b512, bl_digest, bl_write. rewrite !lz_concat by lia. cbn [concat]. by rewrite !app_nil_r.
Qed.
