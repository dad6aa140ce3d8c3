(** * Serialization and hash adaptors: proofs *)
From Coq Require Import Strings.Byte NArith.
From stdpp Require Import prelude countable gmap sorting strings.
From Verif Require Import Model Bits Codec.

Local Open Scope nat_scope.

Lemma byte_of_to_N x : Byte.to_N (byte_of x) = (x mod 256)%N.
Proof.
  unfold byte_of. destruct (Byte.of_N (x mod 256)) as [b|] eqn:E; simpl.
  - by apply Byte.to_of_N in E.
  - apply Byte.of_N_None_iff in E. pose proof (N.mod_lt x 256). lia.
Qed.
Lemma le_bytes_length w x : length (le_bytes w x) = w.
Proof. revert x. induction w; intros x; simpl; auto. Qed.
Lemma read_le_le_bytes w x rest :
  (x < 256 ^ N.of_nat w)%N → read_le w (le_bytes w x ++ rest) = Ok (x, rest).
Proof.
  revert x. induction w as [|w IH]; intros x Hx.
  { simpl in *. assert (x = 0)%N as -> by lia. done. }
  cbn [le_bytes read_le app]. rewrite IH.
  - cbn [mbind res_bind fst snd]. rewrite byte_of_to_N. do 2 f_equal. pose proof (N.div_mod' x 256). lia.
  - rewrite Nat2N.inj_succ, N.pow_succ_r' in Hx. apply N.div_lt_upper_bound; lia.
Qed.
Lemma read_le_no_pan w b : read_le w b ≠ Pan.
Proof.
  revert b. induction w as [|w IH]; intros b; simpl; [done|].
  destruct b as [|x b]; [done|]. specialize (IH b).
  by destruct (read_le w b).
Qed.
Lemma dec_u64_enc x rest : u64 x → dec_u64 (enc_u64 x ++ rest) = Ok (x, rest).
Proof.
  intros Hx. unfold dec_u64, enc_u64. rewrite read_le_le_bytes; [|done].
  simpl. by rewrite Nat2N.id.
Qed.
Lemma dec_u32_enc x rest : x < 3 → dec_u32 (enc_u32 x ++ rest) = Ok (x, rest).
Proof.
  intros Hx. unfold dec_u32, enc_u32. rewrite read_le_le_bytes.
  - simpl. by rewrite Nat2N.id.
  - change (256 ^ N.of_nat 4)%N with 4294967296%N. lia.
Qed.
Lemma dec_seq_enc l rest : u64 (length l) → dec_seq (enc_seq l ++ rest) = Ok (l, rest).
Proof.
  intros Hl. unfold dec_seq, enc_seq, enc_u64. rewrite <- (assoc_L (++)).
  rewrite read_le_le_bytes; [|done]. cbn [mbind res_bind fst snd].
  rewrite Nat2N.id, app_length.
  destruct (N.leb_spec (N.of_nat (length l)) (N.of_nat (length l + length rest))); [|lia].
  by rewrite take_app, drop_app.
Qed.
Lemma mkarr_arr {n} (a : arr n) : mkarr n a = a.
Proof.
  apply arr_inj. change (resize n x00 a = a). apply resize_all_alt. symmetry. apply (proj2_sig a).
Qed.
Lemma arr_length {n} (a : arr n) : length a = n.
Proof. apply (proj2_sig a). Qed.
Lemma dec_arr_enc {n} (a : arr n) rest : u64 n → dec_arr n (enc_arr a ++ rest) = Ok (a, rest).
Proof.
  intros Hn. unfold dec_arr, enc_arr. rewrite dec_seq_enc by by rewrite arr_length.
  cbn [mbind res_bind fst snd]. unfold visit_bytes. by rewrite mkarr_arr.
Qed.

(** Whatever the length of the stored sequence, decoding it as an array
    succeeds. *)
Lemma dec_arr_any n l rest : u64 (length l) → dec_arr n (enc_seq l ++ rest) = Ok (mkarr n l, rest).
Proof. intros Hl. unfold dec_arr. by rewrite dec_seq_enc. Qed.

Lemma dec_arr_short n m l : u64 m → length l < m → ∃ er, dec_arr n (enc_u64 m ++ l) = Err er.
Proof.
  intros Hm Hl. unfold dec_arr, dec_seq, enc_u64. rewrite read_le_le_bytes; [|done]. cbn [mbind res_bind fst snd].
  destruct (N.leb_spec (N.of_nat m) (N.of_nat (length l))); [lia|]. by eexists.
Qed.
Lemma dec_variant_enc {n} (v : variant n) rest :
  u64 n → small_variant v → dec_variant n (enc_variant v ++ rest) = Ok (v, rest).
Proof.
  intros Hn Hs. unfold dec_variant, enc_variant.
  destruct v as [c z o s k|k d|v]; cbn [small_variant] in Hs;
    rewrite <- !(assoc_L (++)); (rewrite dec_u32_enc by lia); cbn [mbind res_bind fst snd].
  - destruct Hs as [Hc Hs]. rewrite dec_u64_enc by done. cbn [mbind res_bind fst snd].
    rewrite dec_arr_enc by done. cbn [mbind res_bind fst snd].
    rewrite dec_arr_enc by done. cbn [mbind res_bind fst snd].
    rewrite dec_u64_enc by done. cbn [mbind res_bind fst snd]. by rewrite dec_arr_enc.
  - rewrite dec_arr_enc by done. cbn [mbind res_bind fst snd]. by rewrite dec_arr_enc.
  - by rewrite dec_seq_enc.
Qed.

(** Encoding then decoding, whatever bytes follow. *)
Theorem dec_node_enc {n} (nd : node n) rest : small nd → dec_node n (enc_node nd ++ rest) = Ok nd.
Proof.
  intros (Hn & Hr & Hv). unfold dec_node, enc_node. rewrite <- (assoc_L (++)).
  rewrite dec_u64_enc by done. cbn [mbind res_bind fst snd].
  rewrite dec_variant_enc by done. by destruct nd.
Qed.
(** Different nodes have different bytes, none a prefix of another. *)
Theorem enc_node_inj {n} (nd nd' : node n) rest rest' :
  small nd → small nd' → enc_node nd ++ rest = enc_node nd' ++ rest' → nd = nd'.
Proof.
  intros H1 H2 He. apply (f_equal (dec_node n)) in He. rewrite !dec_node_enc in He by done. congruence.
Qed.

Lemma bind_no_pan {A B} (m : res A) (f : A → res B) : m ≠ Pan → (∀ a, f a ≠ Pan) → (m ≫= f) ≠ Pan.
Proof. destruct m; cbn; auto. Qed.
(** Decoding arbitrary bytes never panics. *)
Theorem dec_node_no_pan n b : dec_node n b ≠ Pan.
Proof.
  assert (Hu : ∀ b, dec_u64 b ≠ Pan).
  { intros b'. apply bind_no_pan; [apply read_le_no_pan|done]. }
  assert (Hs : ∀ b, dec_seq b ≠ Pan).
  { intros b'. apply bind_no_pan; [apply read_le_no_pan|]. intros a. by case_match. }
  assert (Ha : ∀ b, dec_arr n b ≠ Pan).
  { intros b'. apply bind_no_pan; [apply Hs|done]. }
  apply bind_no_pan; [apply Hu|]. intros r. apply bind_no_pan; [|done].
  apply bind_no_pan; [apply bind_no_pan; [apply read_le_no_pan|done]|]. intros i.
  destruct (i.1) as [|[|[|?]]]; [| | |done].
  - do 5 (apply bind_no_pan; [auto|intros ?]). done.
  - do 2 (apply bind_no_pan; [auto|intros ?]). done.
  - apply bind_no_pan; [auto|]. done.
Qed.

(** ** Hash adaptors *)
Lemma copy_prefix_ok n k src : k ≤ n → length src = k →
  copy_prefix (replicate n x00) k src = Ok (src ++ replicate (n - k) x00).
Proof.
  intros Hk Hs. unfold copy_prefix. rewrite replicate_length.
  rewrite (proj2 (Nat.leb_le k n) Hk), Hs, Nat.eqb_refl. cbn. by rewrite drop_replicate.
Qed.
Lemma slice_to_ok l k : k ≤ length l → slice_to l k = Ok (take k l).
Proof. intros Hk. unfold slice_to. by rewrite (proj2 (Nat.leb_le _ _) Hk). Qed.
Lemma resize_short n (l : bytes) : length l ≤ n → resize n x00 l = l ++ replicate (n - length l) x00.
Proof. apply resize_ge. Qed.
Lemma take_pad n (l : bytes) : n ≤ length l → take n l ++ replicate (n - n) x00 = resize n x00 l.
Proof. intros Hl. rewrite resize_le by done. by rewrite Nat.sub_diag, app_nil_r. Qed.

Theorem finalize_u64_spec n v : length v = 8 → finalize_u64 n v = Ok (resize n x00 v).
Proof.
  intros Hv. unfold finalize_u64. destruct (Nat.leb_spec 8 n).
  - rewrite copy_prefix_ok by done. rewrite resize_short by lia. by rewrite Hv.
  - rewrite slice_to_ok by lia. cbn [mbind res_bind].
    rewrite copy_prefix_ok by (rewrite ?take_length; lia). rewrite take_pad by lia. done.
Qed.
Theorem finalize_sha256_spec n v : length v = 32 → finalize_sha256 n v = Ok (resize n x00 v).
Proof.
  intros Hv. unfold finalize_sha256. destruct (Nat.ltb_spec 32 n).
  - rewrite copy_prefix_ok by lia. rewrite resize_short by lia. by rewrite Hv.
  - rewrite slice_to_ok by lia. cbn [mbind res_bind].
    rewrite copy_prefix_ok by (rewrite ?take_length; lia). rewrite take_pad by lia. done.
Qed.
Theorem finalize_digest_spec n v : finalize_digest n v = Ok (resize n x00 v).
Proof.
  unfold finalize_digest. destruct (Nat.ltb_spec (length v) n).
  - rewrite slice_to_ok by lia. cbn [mbind res_bind].
    rewrite take_ge by lia. rewrite copy_prefix_ok by lia. by rewrite resize_short by lia.
  - rewrite slice_to_ok by lia. cbn [mbind res_bind].
    rewrite copy_prefix_ok by (rewrite ?take_length; lia). rewrite take_pad by lia. done.
Qed.
Theorem blake2b_spec n digest data :
  (∀ n d, 1 ≤ n ≤ 64 → length (digest n d) = n) →
  (1 ≤ n ≤ 64 → blake2b n digest data = Ok (digest n data)) ∧
  (¬ (1 ≤ n ≤ 64) → blake2b n digest data = Pan).
Proof.
  intros Hd. unfold blake2b. split; intros Hn.
  - rewrite (proj2 (Nat.leb_le 1 n)) by lia. rewrite (proj2 (Nat.leb_le n 64)) by lia. cbn [andb].
    unfold finalize_blake2b. rewrite copy_prefix_ok by auto. by rewrite Nat.sub_diag, app_nil_r.
  - destruct (Nat.leb_spec 1 n); [|done]. destruct (Nat.leb_spec n 64); [lia|done].
Qed.
