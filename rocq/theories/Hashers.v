(** * The other built-in hashers
    [DefaultHasher] (SipHash-1-3 with the key zero; src/tree_hasher/default.rs), Keccak-256 and
    SHA3-256 (tiny-keccak; keccak.rs, sha3_openssl.rs), SHA-256 (openssl; sha256.rs).  All of them
    buffer their input until a block is full.  The functions are modelled from their published
    specifications, which are not in this repository; the examples are published test vectors. *)
From Coq Require Import Strings.Byte NArith.
From stdpp Require Import prelude countable gmap sorting strings.
From Verif Require Import Model Bits Codec CodecProofs Fx Sea.

Local Open Scope nat_scope.

(** ** Buffered input
    [w]: the size of a block, [step]: what a block does to the state. *)
Section Buffer.
  Context {A : Type} (w : nat) (step : A → bytes → A).
  Record buf := Buf { buf_st : A; buf_len : N; buf_tail : bytes }.
  Definition buf_push (s : buf) (b : bytes) : buf := Buf (step (buf_st s) b) (buf_len s + N.of_nat w) [].
  Definition buf_keep (s : buf) (t : bytes) : buf := Buf (buf_st s) (buf_len s) t.
  (** Whole blocks, then the rest. *)
  Fixpoint buf_blocks (fuel : nat) (s : buf) (b : bytes) : buf :=
    match fuel with
    | 0 => s
    | S fuel' => if w <=? length b then buf_blocks fuel' (buf_push s (take w b)) (drop w b) else buf_keep s b
    end.
  (** [update]: fill up the buffer first. *)
  Definition buf_write (s : buf) (b : bytes) : buf :=
    let copied := (w - length (buf_tail s)) `min` length b in
    if copied + length (buf_tail s) <? w then buf_keep s (buf_tail s ++ take copied b)
    else buf_blocks (S (length b)) (buf_push s (buf_tail s ++ take copied b)) (drop copied b).
  Definition buf_new (a : A) : buf := Buf a 0 [].
  (** The number of bytes written. *)
  Definition buf_total (s : buf) : N := (buf_len s + N.of_nat (length (buf_tail s)))%N.

  Context (Hw : 0 < w).
  Lemma buf_blocks_tail fuel s b : length b < fuel → length (buf_tail (buf_blocks fuel s b)) < w.
  Proof using Hw.
    revert s b. induction fuel as [|fuel IH]; intros s b Hb; [lia|]. cbn [buf_blocks].
    destruct (Nat.leb_spec w (length b)) as [H8|H8]; [|done]. apply IH. rewrite drop_length. lia.
  Qed.
  Lemma buf_write_tail s b : length (buf_tail s) < w → length (buf_tail (buf_write s b)) < w.
  Proof using Hw.
    intros Hs. unfold buf_write. set (c := _ `min` _).
    destruct (Nat.ltb_spec (c + length (buf_tail s)) w) as [Hc|Hc].
    - cbn [buf_keep buf_tail]. rewrite app_length, take_length. subst c. lia.
    - apply buf_blocks_tail. rewrite drop_length. lia.
  Qed.
  Lemma buf_blocks_fuel f f' s b : length b < f → length b < f' → buf_blocks f s b = buf_blocks f' s b.
  Proof using Hw.
    revert f' s b. induction f as [|f IH]; intros [|f'] s b Hf Hf'; [lia|lia|lia|]. cbn [buf_blocks].
    destruct (Nat.leb_spec w (length b)); [|done]. apply IH; rewrite drop_length; lia.
  Qed.
  Lemma buf_blocks_step fuel s b : w ≤ length b → buf_blocks (S fuel) s b = buf_blocks fuel (buf_push s (take w b)) (drop w b).
  Proof. intros Hb. cbn [buf_blocks]. apply Nat.leb_le in Hb. by rewrite Hb. Qed.
  Lemma buf_write_blocks s b : length (buf_tail s) < w →
    buf_write s b = buf_blocks (S (length (buf_tail s) + length b)) s (buf_tail s ++ b).
  Proof using Hw.
    intros Hs. unfold buf_write. set (t := buf_tail s) in *.
    destruct (Nat.leb_spec w (length t + length b)) as [H8|H8].
    - rewrite (buf_blocks_step _ s) by (rewrite app_length; lia). replace ((w - length t) `min` length b) with (w - length t) by lia.
      destruct (Nat.ltb_spec (w - length t + length t) w); [lia|].
      rewrite take_app_ge, drop_app_ge by lia. apply buf_blocks_fuel; rewrite drop_length; lia.
    - replace ((w - length t) `min` length b) with (length b) by lia. cbn [buf_blocks]. rewrite app_length.
      destruct (Nat.leb_spec w (length t + length b)); [lia|].
      destruct (Nat.ltb_spec (length b + length t) w); [|lia]. by rewrite firstn_all.
  Qed.
  Lemma buf_blocks_write f s b c : length b < f → buf_write (buf_blocks f s b) c = buf_blocks (f + length c) s (b ++ c).
  Proof using Hw.
    revert s b. induction f as [|f IH]; intros s b Hf; [lia|].
    destruct (Nat.leb_spec w (length b)) as [H8|H8].
    - cbn [Nat.add]. rewrite !buf_blocks_step by (rewrite ?app_length; lia).
      rewrite IH by (rewrite drop_length; lia). by rewrite take_app_le, drop_app_le by lia.
    - cbn [buf_blocks]. destruct (Nat.leb_spec w (length b)); [lia|].
      rewrite buf_write_blocks by done. cbn [buf_keep buf_tail].
      rewrite (buf_blocks_fuel (S f + length c) (S (length b + length c)) s) by (rewrite app_length; lia).
      reflexivity.
  Qed.
  Lemma buf_write_app s b c : length (buf_tail s) < w → buf_write (buf_write s b) c = buf_write s (b ++ c).
  Proof using Hw.
    intros Hs. rewrite (buf_write_blocks s b), (buf_write_blocks s (b ++ c)) by done.
    rewrite buf_blocks_write by (rewrite app_length; lia).
    rewrite <- app_assoc. apply buf_blocks_fuel; rewrite !app_length; lia.
  Qed.
  (** The pieces do not matter, only their concatenation. *)
  Lemma buf_concat a cs : foldl buf_write (buf_new a) cs = buf_write (buf_new a) (concat cs).
  Proof using Hw.
    assert (length (buf_tail (buf_new a)) < w) as Hs by done. revert Hs. generalize (buf_new a).
    induction cs as [|c cs IH]; intros s Hs.
    - cbn. unfold buf_write. rewrite Nat.min_0_r. cbn [Nat.add take]. destruct (Nat.ltb_spec (length (buf_tail s)) w); [|lia].
      rewrite app_nil_r. by destruct s.
    - cbn [foldl concat]. rewrite IH by (by apply buf_write_tail). by apply buf_write_app.
  Qed.
End Buffer.
Arguments Buf {A}. Arguments buf_st {A}. Arguments buf_len {A}. Arguments buf_tail {A}. Arguments buf_new {A}. Arguments buf_total {A}.

Definition w64 (x : N) : N := (x mod 2 ^ 64)%N.
Definition rotl64 (x r : N) : N := N.lor (w64 (N.shiftl x r)) (N.shiftr x (64 - r)).
Definition w32 (x : N) : N := (x mod 2 ^ 32)%N.
Definition rotr32 (x r : N) : N := N.lor (N.shiftr x r) (w32 (N.shiftl x (32 - r))).

(** ** SipHash-1-3 *)
Record sip_st := Sip { sip0 : N; sip1 : N; sip2 : N; sip3 : N }.
Definition sip_round (s : sip_st) : sip_st :=
  let v0 := w64 (sip0 s + sip1 s) in let v2 := w64 (sip2 s + sip3 s) in
  let v1 := N.lxor (rotl64 (sip1 s) 13) v0 in let v3 := N.lxor (rotl64 (sip3 s) 16) v2 in
  let v0 := rotl64 v0 32 in
  let v2 := w64 (v2 + v1) in let v0 := w64 (v0 + v3) in
  let v1 := N.lxor (rotl64 v1 17) v2 in let v3 := N.lxor (rotl64 v3 21) v0 in
  Sip v0 v1 (rotl64 v2 32) v3.
Definition sip_word (s : sip_st) (m : N) : sip_st :=
  let s := sip_round (Sip (sip0 s) (sip1 s) (sip2 s) (N.lxor (sip3 s) m)) in
  Sip (N.lxor (sip0 s) m) (sip1 s) (sip2 s) (sip3 s).
Definition sip_init (k0 k1 : N) : sip_st :=
  Sip (N.lxor k0 0x736f6d6570736575) (N.lxor k1 0x646f72616e646f6d) (N.lxor k0 0x6c7967656e657261) (N.lxor k1 0x7465646279746573).
Definition sip_write := buf_write 8 (λ s b, sip_word s (word_of b)).
Definition sip_finish (s : buf) : N :=
  let b := N.lor (N.shiftl (buf_total s mod 256) 56) (word_of (buf_tail s)) in
  let s := sip_word (buf_st s) b in
  let s := Sip (sip0 s) (sip1 s) (N.lxor (sip2 s) 0xff) (sip3 s) in
  let s := sip_round (sip_round (sip_round s)) in
  N.lxor (N.lxor (N.lxor (sip0 s) (sip1 s)) (sip2 s)) (sip3 s).
Definition sip_digest (k0 k1 : N) (cs : list bytes) : N := sip_finish (foldl sip_write (buf_new (sip_init k0 k1)) cs).
(** [DefaultHasher::new()], [write] for each piece, [finalize] (default.rs:8-31). *)
Definition default_hasher (n : nat) (cs : list bytes) : res bytes := finalize_u64 n (le_bytes 8 (sip_digest 0 0 cs)).
Example sip_vector : let d := sip_digest 0x0706050403020100 0x0f0e0d0c0b0a0908 in
  le_bytes 8 (d []) = [xdc; xc4; x0f; x05; x58; x01; xac; xab] ∧
  le_bytes 8 (d [[x00]]) = [x93; xca; x57; x7d; xf3; x9b; xf4; xc9].
Proof. vm_compute. done. Qed.

(** ** Keccak *)
Definition kc_round_constants : list N := [
  0x1; 0x8082; 0x800000000000808a; 0x8000000080008000; 0x808b; 0x80000001; 0x8000000080008081;
  0x8000000000008009; 0x8a; 0x88; 0x80008009; 0x8000000a; 0x8000808b; 0x800000000000008b; 0x8000000000008089;
  0x8000000000008003; 0x8000000000008002; 0x8000000000000080; 0x800a; 0x800000008000000a; 0x8000000080008081;
  0x8000000000008080; 0x80000001; 0x8000000080008008]%N.
(** For each lane of the result of the steps rho and pi: the lane it comes from and by how much that is rotated. *)
Definition kc_rho_pi : list (nat * N) := [
  (0, 0%N); (6, 44%N); (12, 43%N); (18, 21%N); (24, 14%N); (3, 28%N); (9, 20%N); (10, 3%N); (16, 45%N); (22,
  61%N); (1, 1%N); (7, 6%N); (13, 25%N); (19, 8%N); (20, 18%N); (4, 27%N); (5, 36%N); (11, 10%N); (17, 15%N);
  (23, 56%N); (2, 62%N); (8, 55%N); (14, 39%N); (15, 41%N); (21, 2%N)].
Definition lane (s : list N) (i : nat) : N := nth i s 0%N.
Definition kc_theta (s : list N) : list N :=
  let c := (λ x, N.lxor (lane s x) (N.lxor (lane s (x + 5)) (N.lxor (lane s (x + 10)) (N.lxor (lane s (x + 15)) (lane s (x + 20)))))) <$> seq 0 5 in
  (λ i, N.lxor (lane s i) (N.lxor (lane c ((i + 4) mod 5)) (rotl64 (lane c ((i + 1) mod 5)) 1))) <$> seq 0 25.
Definition kc_chi (s : list N) : list N :=
  (λ i, let y := 5 * (i / 5) in
     N.lxor (lane s i) (N.land (N.lxor (lane s ((i + 1) mod 5 + y)) (N.ones 64)) (lane s ((i + 2) mod 5 + y)))) <$> seq 0 25.
Definition kc_round (s : list N) (rc : N) : list N :=
  let s := kc_theta s in
  let s := (λ p : nat * N, rotl64 (lane s p.1) p.2) <$> kc_rho_pi in
  let s := kc_chi s in
  match s with a :: s' => N.lxor a rc :: s' | [] => [] end.
Definition keccak_f (s : list N) : list N := foldl kc_round s kc_round_constants.
(** The rate of the 256-bit variants, in bytes. *)
Notation rate := 136.
Definition kc_absorb (s : list N) (b : bytes) : list N :=
  keccak_f ((λ i, N.lxor (lane s i) (word_of (take 8 (drop (8 * i) b)))) <$> seq 0 25).
Definition kc_pad (delim : byte) (tail : bytes) : bytes :=
  let b := tail ++ delim :: replicate (rate - 1 - length tail) x00 in
  take (rate - 1) b ++ [byte_of (N.lor (Byte.to_N (nth (rate - 1) b x00)) 128)].
(** [squeeze]: whole blocks while the rest of the output is not shorter, then a part of one. *)
Definition kc_block (s : list N) : bytes := concat (le_bytes 8 <$> (lane s <$> seq 0 17)).
Fixpoint kc_squeeze (fuel : nat) (s : list N) (n : nat) : bytes :=
  match fuel with
  | 0 => []
  | S fuel' => if rate <=? n then kc_block s ++ kc_squeeze fuel' (keccak_f s) (n - rate) else take n (kc_block s)
  end.
Definition kc_write := buf_write rate kc_absorb.
Definition kc_finish (delim : byte) (s : buf) (n : nat) : bytes :=
  kc_squeeze (S n) (kc_absorb (buf_st s) (kc_pad delim (buf_tail s))) n.
Definition kc_digest (delim : byte) (cs : list bytes) (n : nat) : bytes :=
  kc_finish delim (foldl kc_write (buf_new (replicate 25 0%N)) cs) n.
(** [KeccakHasher], [Sha3Hasher] (keccak.rs:8-30, sha3_openssl.rs:7-26): the output buffer has N bytes. *)
Definition keccak (n : nat) (cs : list bytes) : bytes := kc_digest x01 cs n.
Definition sha3 (n : nat) (cs : list bytes) : bytes := kc_digest x06 cs n.
Example keccak_vector : keccak 32 [] =
  [xc5; xd2; x46; x01; x86; xf7; x23; x3c; x92; x7e; x7d; xb2; xdc; xc7; x03; xc0; xe5; x00; xb6; x53; xca;
  x82; x27; x3b; x7b; xfa; xd8; x04; x5d; x85; xa4; x70].
Proof. vm_compute. reflexivity. Qed.
Definition abc : bytes := [x61; x62; x63].
Example sha3_vector : sha3 32 [abc] =
  [x3a; x98; x5d; xa7; x4f; xe2; x25; xb2; x04; x5c; x17; x2d; x6b; xd3; x90; xbd; x85; x5f; x08; x6e; x3e;
  x9d; x52; x5b; x46; xbf; xe2; x45; x11; x43; x15; x32].
Proof. vm_compute. reflexivity. Qed.

(** ** SHA-256 *)
Definition sha_k : list N := [
  0x428a2f98; 0x71374491; 0xb5c0fbcf; 0xe9b5dba5; 0x3956c25b; 0x59f111f1; 0x923f82a4; 0xab1c5ed5; 0xd807aa98;
  0x12835b01; 0x243185be; 0x550c7dc3; 0x72be5d74; 0x80deb1fe; 0x9bdc06a7; 0xc19bf174; 0xe49b69c1; 0xefbe4786;
  0x0fc19dc6; 0x240ca1cc; 0x2de92c6f; 0x4a7484aa; 0x5cb0a9dc; 0x76f988da; 0x983e5152; 0xa831c66d; 0xb00327c8;
  0xbf597fc7; 0xc6e00bf3; 0xd5a79147; 0x06ca6351; 0x14292967; 0x27b70a85; 0x2e1b2138; 0x4d2c6dfc; 0x53380d13;
  0x650a7354; 0x766a0abb; 0x81c2c92e; 0x92722c85; 0xa2bfe8a1; 0xa81a664b; 0xc24b8b70; 0xc76c51a3; 0xd192e819;
  0xd6990624; 0xf40e3585; 0x106aa070; 0x19a4c116; 0x1e376c08; 0x2748774c; 0x34b0bcb5; 0x391c0cb3; 0x4ed8aa4a;
  0x5b9cca4f; 0x682e6ff3; 0x748f82ee; 0x78a5636f; 0x84c87814; 0x8cc70208; 0x90befffa; 0xa4506ceb; 0xbef9a3f7;
  0xc67178f2]%N.
Definition sha_init : list N := [
  0x6a09e667; 0xbb67ae85; 0x3c6ef372; 0xa54ff53a; 0x510e527f; 0x9b05688c; 0x1f83d9ab; 0x5be0cd19]%N.
Definition word_be (b : bytes) : N := foldl (λ r x, 256 * r + Byte.to_N x)%N 0%N b.
Definition be_bytes (w : nat) (x : N) : bytes := reverse (le_bytes w x).
(** The message schedule, newest word first. *)
Definition sha_extend (ws : list N) : list N :=
  let w15 := lane ws 14 in let w2 := lane ws 1 in
  let s0 := N.lxor (N.lxor (rotr32 w15 7) (rotr32 w15 18)) (N.shiftr w15 3) in
  let s1 := N.lxor (N.lxor (rotr32 w2 17) (rotr32 w2 19)) (N.shiftr w2 10) in
  w32 (lane ws 15 + s0 + lane ws 6 + s1) :: ws.
Definition sha_schedule (b : bytes) : list N :=
  reverse (Nat.iter 48 sha_extend (reverse ((λ i, word_be (take 4 (drop (4 * i) b))) <$> seq 0 16))).
Definition sha_round (s : list N) (kw : N * N) : list N :=
  match s with
  | [a; b; c; d; e; f; g; h] =>
      let s1 := N.lxor (N.lxor (rotr32 e 6) (rotr32 e 11)) (rotr32 e 25) in
      let ch := N.lxor (N.land e f) (N.land (N.lxor e (N.ones 32)) g) in
      let t1 := w32 (h + s1 + ch + kw.1 + kw.2) in
      let s0 := N.lxor (N.lxor (rotr32 a 2) (rotr32 a 13)) (rotr32 a 22) in
      let maj := N.lxor (N.lxor (N.land a b) (N.land a c)) (N.land b c) in
      [w32 (t1 + s0 + maj); a; b; c; w32 (d + t1); e; f; g]
  | _ => s
  end.
Definition sha_block (s : list N) (b : bytes) : list N :=
  zip_with (λ x y, w32 (x + y)) s (foldl sha_round s (zip sha_k (sha_schedule b))).
Definition sha_write := buf_write 64 sha_block.
Definition sha_finish (s : buf) : bytes :=
  let len := be_bytes 8 (w64 (8 * buf_total s)) in
  let t := buf_tail s in
  let s' := if length t <? 56 then sha_block (buf_st s) (t ++ x80 :: replicate (55 - length t) x00 ++ len)
            else sha_block (sha_block (buf_st s) (t ++ x80 :: replicate (63 - length t) x00)) (replicate 56 x00 ++ len) in
  concat (be_bytes 4 <$> s').
Definition sha256_digest (cs : list bytes) : bytes := sha_finish (foldl sha_write (buf_new sha_init) cs).
(** [Sha256Hasher] (sha256.rs:8-33). *)
Definition sha256 (n : nat) (cs : list bytes) : res bytes := finalize_sha256 n (sha256_digest cs).
Example sha256_vector : sha256_digest [abc] =
  [xba; x78; x16; xbf; x8f; x01; xcf; xea; x41; x41; x40; xde; x5d; xae; x22; x23; xb0; x03; x61; xa3; x96;
  x17; x7a; x9c; xb4; x10; xff; x61; xf2; x00; x15; xad].
Proof. vm_compute. reflexivity. Qed.
Example sha256_two_blocks : sha256_digest [replicate 60 x61; replicate 61 x61] =
  [xe9; x61; x53; x20; x12; x8c; xc7; xa3; xd6; x07; x8e; x9a; xf0; x56; x03; x18; x8e; x5c; xcb; xf0; xd0;
  x7d; x8b; x73; x5d; x3d; xf5; xe8; xe0; xc1; x28; x1f].
Proof. vm_compute. reflexivity. Qed.

(** ** The outputs *)
Lemma kc_block_length s : length (kc_block s) = rate.
Proof. unfold kc_block. cbn [seq fmap list_fmap concat]. rewrite !app_length, !le_bytes_length. done. Qed.
Lemma kc_squeeze_length fuel s n : n < fuel → length (kc_squeeze fuel s n) = n.
Proof.
  revert s n. induction fuel as [|fuel IH]; intros s n Hn; [lia|]. cbn [kc_squeeze].
  destruct (Nat.leb_spec rate n).
  - rewrite app_length, IH, kc_block_length by lia. lia.
  - rewrite take_length, kc_block_length. lia.
Qed.
Lemma kc_squeeze_prefix fuel fuel' s m n : m < fuel → n < fuel' → m ≤ n → kc_squeeze fuel s m = take m (kc_squeeze fuel' s n).
Proof.
  revert fuel' s m n. induction fuel as [|fuel IH]; intros [|fuel'] s m n Hm Hn Hle; [lia|lia|lia|]. cbn [kc_squeeze].
  destruct (Nat.leb_spec rate m) as [H1|H1], (Nat.leb_spec rate n) as [H2|H2]; [|lia| |].
  - rewrite take_app_ge by (rewrite kc_block_length; lia). rewrite kc_block_length. f_equal. apply IH; lia.
  - rewrite take_app_le by (rewrite kc_block_length; lia). done.
  - rewrite take_take. f_equal. lia.
Qed.
Lemma kc_digest_length delim cs n : length (kc_digest delim cs n) = n.
Proof. apply kc_squeeze_length. lia. Qed.
Lemma kc_digest_prefix delim cs m n : m ≤ n → kc_digest delim cs m = take m (kc_digest delim cs n).
Proof. intros Hm. apply kc_squeeze_prefix; lia. Qed.
Lemma sha_round_length s kw : length (sha_round s kw) = length s.
Proof. destruct s as [|? [|? [|? [|? [|? [|? [|? [|? [|? ?]]]]]]]]]; done. Qed.
Lemma sha_block_length s b : length (sha_block s b) = length s.
Proof.
  unfold sha_block. rewrite zip_with_length.
  assert (∀ l, length (foldl sha_round s l) = length s) as ->; [|lia].
  intros l. revert s. induction l as [|kw l IH]; intros s; [done|]. cbn [foldl]. by rewrite IH, sha_round_length.
Qed.
Lemma buf_state_inv {A} (P : A → Prop) w step (Hs : ∀ a b, P a → P (step a b)) cs (s : buf) :
  P (buf_st s) → P (buf_st (foldl (buf_write w step) s cs)).
Proof.
  assert (∀ f (s : buf) b, P (buf_st s) → P (buf_st (buf_blocks w step f s b))) as Hb.
  { induction f as [|f IH]; intros s1 b H1; [done|]. cbn [buf_blocks]. destruct (w <=? length b); [|done].
    apply IH. cbn. auto. }
  revert s. induction cs as [|c cs IH]; intros s H1; [done|]. cbn [foldl]. apply IH.
  unfold buf_write. destruct (_ <? w); [done|]. apply Hb. cbn. auto.
Qed.
Lemma sha256_digest_length cs : length (sha256_digest cs) = 32.
Proof.
  unfold sha256_digest, sha_finish, sha_write.
  set (s := foldl _ _ _). assert (length (buf_st s) = 8) as Hs.
  { apply (buf_state_inv (λ l : list N, length l = 8)); [|done]. intros a b Ha. by rewrite sha_block_length. }
  set (s' := if _ <? _ then _ else _). assert (length s' = 8) as Hs'.
  { subst s'. destruct (_ <? _); by rewrite !sha_block_length. }
  clearbody s'. clear -Hs'. destruct s' as [|? [|? [|? [|? [|? [|? [|? [|? [|? ?]]]]]]]]]; done.
Qed.

(** Each hasher returns N bytes: the digest cut to N bytes, or padded with zeros; Keccak and SHA-3 go on squeezing instead. *)
Theorem hashers_length n cs :
  default_hasher n cs = Ok (resize n x00 (le_bytes 8 (sip_digest 0 0 cs))) ∧
  sha256 n cs = Ok (resize n x00 (sha256_digest cs)) ∧ length (sha256_digest cs) = 32 ∧
  length (keccak n cs) = n ∧ (∀ m, m ≤ n → keccak m cs = take m (keccak n cs)) ∧
  length (sha3 n cs) = n ∧ (∀ m, m ≤ n → sha3 m cs = take m (sha3 n cs)).
Proof.
  split; [apply finalize_u64_spec, le_bytes_length|]. split; [apply finalize_sha256_spec, sha256_digest_length|].
  split; [apply sha256_digest_length|]. split; [apply kc_digest_length|]. split; [intros m; apply kc_digest_prefix|].
  split; [apply kc_digest_length|]. intros m. apply kc_digest_prefix.
Qed.
(** The string hashed for a node may as well be passed in one piece. *)
Theorem hashers_concat n cs :
  default_hasher n cs = default_hasher n [concat cs] ∧ sha256 n cs = sha256 n [concat cs] ∧
  keccak n cs = keccak n [concat cs] ∧ sha3 n cs = sha3 n [concat cs].
Proof.
  unfold default_hasher, sip_digest, sip_write, sha256, sha256_digest, sha_write, keccak, sha3, kc_digest, kc_write.
  rewrite !buf_concat by lia. cbn [concat]. rewrite !app_nil_r. done.
Qed.
Theorem pieces n cs :
  default_hasher n cs = default_hasher n [concat cs] ∧ sha256 n cs = sha256 n [concat cs] ∧
  keccak n cs = keccak n [concat cs] ∧ sha3 n cs = sha3 n [concat cs] ∧ sea n cs = sea n [concat cs].
Proof.
  destruct (hashers_concat n cs) as (H1 & H2 & H3 & H4). split; [exact H1|]. split; [exact H2|]. split; [exact H3|].
  split; [exact H4|]. unfold sea. by rewrite sea_concat.
Qed.
