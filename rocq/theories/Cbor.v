(** * CBOR
    The feature [cbor] (src/tree/tree_node.rs:94-102 and 146-152):
    [ciborium::ser::into_writer] and [ciborium::de::from_reader], from the
    documentation of [ciborium] and RFC 8949.  The writer: lengths in front,
    numbers in the shortest form, a struct or a newtype variant as a map from
    text.  The reader: any item built of unsigned numbers, text, arrays and maps
    with lengths in front, in any form; bytes after the item are ignored.
    Simplifications, all about texts the writer does not produce: items of other
    kinds (negative numbers, byte strings, tags, floats, unknown lengths) are
    refused, text is not checked to be UTF-8, and there is no limit on nesting. *)
From Coq Require Import Strings.Byte Strings.String NArith.
From stdpp Require Import prelude countable gmap sorting strings.
From Verif Require Import Model Codec CodecProofs Serde SerdeProofs.

Local Open Scope nat_scope.

(** ** Model *)
Definition be_bytes (w : nat) (x : N) : bytes := reverse (le_bytes w x).
Definition c_head (major x : N) : bytes :=
  if (x <? 24)%N then [byte_of (32 * major + x)]
  else if (x <? 256)%N then byte_of (32 * major + 24) :: be_bytes 1 x
  else if (x <? 65536)%N then byte_of (32 * major + 25) :: be_bytes 2 x
  else if (x <? 2 ^ 32)%N then byte_of (32 * major + 26) :: be_bytes 4 x
  else byte_of (32 * major + 27) :: be_bytes 8 x.
Definition c_text (s : bytes) : bytes := c_head 3 (N.of_nat (length s)) ++ s.
Fixpoint cbor_write (d : doc) : bytes :=
  match d with
  | DNum x => c_head 0 x
  | DStr s => c_text s
  | DSeq l => c_head 4 (N.of_nat (length l)) ++ foldr (λ d b, cbor_write d ++ b) [] l
  | DMap l => c_head 5 (N.of_nat (length l)) ++ foldr (λ p b, c_text p.1 ++ cbor_write p.2 ++ b) [] l
  end.

Definition c_arg (w : nat) (b : bytes) : res (N * bytes) :=
  if length b <? w then Err "failed to fill whole buffer"
  else r ← read_le w (reverse (take w b)); Ok (r.1, drop w b).
(** The kind and the number of an item. *)
Definition c_pull (b : bytes) : res (N * N * bytes) :=
  match b with
  | [] => Err "failed to fill whole buffer"
  | c :: b' =>
      let major := (Byte.to_N c / 32)%N in
      let i := (Byte.to_N c mod 32)%N in
      if (i <? 24)%N then Ok (major, i, b')
      else if (i <? 28)%N then r ← c_arg (2 ^ N.to_nat (i - 24)) b'; Ok (major, r.1, r.2)
      else Err "not modelled"
  end.
Definition c_take (x : N) (b : bytes) : res (bytes * bytes) :=
  if (N.of_nat (length b) <? x)%N then Err "failed to fill whole buffer"
  else Ok (take (N.to_nat x) b, drop (N.to_nat x) b).
Definition c_name (b : bytes) : res (bytes * bytes) :=
  h ← c_pull b;
  if (h.1.1 =? 3)%N then c_take h.1.2 h.2 else Err "expected str".
Fixpoint c_value (fuel : nat) (b : bytes) {struct fuel} : res (doc * bytes) :=
  match fuel with
  | 0 => Err "recursion limit exceeded"
  | S f =>
      h ← c_pull b;
      if (h.1.1 =? 0)%N then Ok (DNum h.1.2, h.2)
      else if (h.1.1 =? 3)%N then r ← c_take h.1.2 h.2; Ok (DStr r.1, r.2)
      else if (h.1.1 =? 4)%N then r ← c_items f h.1.2 h.2; Ok (DSeq r.1, r.2)
      else if (h.1.1 =? 5)%N then r ← c_fields f h.1.2 h.2; Ok (DMap r.1, r.2)
      else Err "not modelled"
  end
with c_items (fuel : nat) (x : N) (b : bytes) {struct fuel} : res (list doc * bytes) :=
  match fuel with
  | 0 => Err "recursion limit exceeded"
  | S f =>
      if (x =? 0)%N then Ok ([], b)
      else v ← c_value f b; r ← c_items f (x - 1) v.2; Ok (v.1 :: r.1, r.2)
  end
with c_fields (fuel : nat) (x : N) (b : bytes) {struct fuel} : res (list (bytes * doc) * bytes) :=
  match fuel with
  | 0 => Err "recursion limit exceeded"
  | S f =>
      if (x =? 0)%N then Ok ([], b)
      else s ← c_name b; v ← c_value f s.2; r ← c_fields f (x - 1) v.2; Ok ((s.1, v.1) :: r.1, r.2)
  end.
Definition cbor_read (b : bytes) : res doc := r ← c_value (2 * length b) b; Ok r.1.
Definition cbor : format := Format cbor_write cbor_read.

(** ** What is written is read *)
Lemma c_arg_be w x rest : (x < 256 ^ N.of_nat w)%N → c_arg w (be_bytes w x ++ rest) = Ok (x, rest).
Proof.
  intros Hx. assert (length (be_bytes w x) = w) as Hl by (unfold be_bytes; by rewrite reverse_length, le_bytes_length).
  unfold c_arg. rewrite app_length, Hl. destruct (Nat.ltb_spec (w + length rest) w) as [?|_]; [lia|].
  rewrite take_app_alt, drop_app_alt by done. unfold be_bytes. rewrite reverse_involutive.
  rewrite <- (app_nil_r (le_bytes w x)), read_le_le_bytes by done. done.
Qed.

Lemma head_byte m x : (m < 8)%N → (x < 32)%N →
  (Byte.to_N (byte_of (32 * m + x)) / 32 = m)%N ∧ (Byte.to_N (byte_of (32 * m + x)) mod 32 = x)%N.
Proof.
  intros Hm Hx. rewrite CodecProofs.byte_of_to_N, (N.mod_small (32 * m + x) 256) by lia. split.
  - rewrite N.mul_comm, N.div_add_l, N.div_small by lia. lia.
  - rewrite N.add_comm, N.mul_comm, N.mod_add by lia. by rewrite N.mod_small.
Qed.
Lemma pull_head m x rest : (m < 8)%N → (x < 2 ^ 64)%N → c_pull (c_head m x ++ rest) = Ok (m, x, rest).
Proof.
  intros Hm Hx. unfold c_head.
  destruct (N.ltb_spec x 24) as [H24|H24].
  { destruct (head_byte m x Hm ltac:(lia)) as [H1 H2]. cbn [app c_pull]. rewrite H1, H2.
    by destruct (N.ltb_spec x 24); [|lia]. }
  destruct (N.ltb_spec x 256) as [Hb|Hb];
    [|destruct (N.ltb_spec x 65536) as [Hc|Hc]; [|destruct (N.ltb_spec x (2 ^ 32)) as [Hd|Hd]]].
  - destruct (head_byte m 24 Hm ltac:(lia)) as [H1 H2]. rewrite <- app_comm_cons. cbn [c_pull]. rewrite H1, H2.
    change (c_arg _ _) with (c_arg 1 (be_bytes 1 x ++ rest)). by rewrite c_arg_be.
  - destruct (head_byte m 25 Hm ltac:(lia)) as [H1 H2]. rewrite <- app_comm_cons. cbn [c_pull]. rewrite H1, H2.
    change (c_arg _ _) with (c_arg 2 (be_bytes 2 x ++ rest)). by rewrite c_arg_be.
  - destruct (head_byte m 26 Hm ltac:(lia)) as [H1 H2]. rewrite <- app_comm_cons. cbn [c_pull]. rewrite H1, H2.
    change (c_arg _ _) with (c_arg 4 (be_bytes 4 x ++ rest)). by rewrite c_arg_be.
  - destruct (head_byte m 27 Hm ltac:(lia)) as [H1 H2]. rewrite <- app_comm_cons. cbn [c_pull]. rewrite H1, H2.
    change (c_arg _ _) with (c_arg 8 (be_bytes 8 x ++ rest)). by rewrite c_arg_be.
Qed.
Lemma c_head_pos m x : 0 < length (c_head m x).
Proof. unfold c_head. repeat (case_match; [simpl; lia|]). simpl; lia. Qed.
Lemma c_take_app s rest : c_take (N.of_nat (length s)) (s ++ rest) = Ok (s, rest).
Proof.
  unfold c_take. rewrite app_length. destruct (N.ltb_spec (N.of_nat (length s + length rest)) (N.of_nat (length s))); [lia|].
  rewrite Nat2N.id. by rewrite take_app_alt, drop_app_alt.
Qed.
Lemma c_name_text s rest : u64 (length s) → c_name (c_text s ++ rest) = Ok (s, rest).
Proof.
  intros Hs. unfold c_name, c_text. rewrite <- (assoc_L (++)), pull_head by done. cbn [mbind res_bind fst snd].
  apply c_take_app.
Qed.

(** Numbers and lengths of 64 bits. *)
Fixpoint narrow (d : doc) : Prop :=
  match d with
  | DNum x => (x < 2 ^ 64)%N
  | DStr s => u64 (length s)
  | DSeq l => u64 (length l) ∧ foldr (λ d P, narrow d ∧ P) True l
  | DMap l => u64 (length l) ∧ foldr (λ p P, (u64 (length p.1) ∧ narrow p.2) ∧ P) True l
  end.
Definition c_good (d : doc) : Prop :=
  narrow d → ∀ f rest, 2 * length (cbor_write d) ≤ f → c_value f (cbor_write d ++ rest) = Ok (d, rest).
Definition c_body (l : list doc) : bytes := foldr (λ d b, cbor_write d ++ b) [] l.
Definition c_pairs (l : list (bytes * doc)) : bytes := foldr (λ p b, c_text p.1 ++ cbor_write p.2 ++ b) [] l.

Lemma cbor_write_pos d : 0 < length (cbor_write d).
Proof.
  destruct d; cbn [cbor_write]; unfold c_text; rewrite ?app_length;
    match goal with |- context [c_head ?m ?x] => pose proof (c_head_pos m x) end; lia.
Qed.
Lemma c_items_good l f rest : Forall c_good l → foldr (λ d P, narrow d ∧ P) True l → 2 * length (c_body l) + 1 ≤ f →
  c_items f (N.of_nat (length l)) (c_body l ++ rest) = Ok (l, rest).
Proof.
  revert f. induction l as [|d l IH]; intros f Hg Hn Hf.
  { destruct f; [simpl in Hf; lia|]. done. }
  apply Forall_cons in Hg as [Hd Hg]. destruct Hn as [Hnd Hnl]. destruct f as [|f]; [lia|].
  pose proof (cbor_write_pos d). cbn [c_body foldr] in Hf |- *. change (foldr _ [] l) with (c_body l) in Hf |- *.
  rewrite app_length in Hf. cbn [c_items length].
  destruct (N.eqb_spec (N.of_nat (S (length l))) 0); [lia|]. rewrite <- (assoc_L (++)), Hd by (done || lia).
  cbn [mbind res_bind fst snd]. replace (N.of_nat (S (length l)) - 1)%N with (N.of_nat (length l)) by lia.
  rewrite IH by (done || lia). done.
Qed.
Lemma c_fields_good l f rest : Forall (λ p, c_good p.2) l →
  foldr (λ p P, (u64 (length p.1) ∧ narrow p.2) ∧ P) True l → 2 * length (c_pairs l) + 1 ≤ f →
  c_fields f (N.of_nat (length l)) (c_pairs l ++ rest) = Ok (l, rest).
Proof.
  revert f. induction l as [|[s d] l IH]; intros f Hg Hn Hf.
  { destruct f; [simpl in Hf; lia|]. done. }
  apply Forall_cons in Hg as [Hd Hg]. destruct Hn as [[Hns Hnd] Hnl]. destruct f as [|f]; [lia|].
  cbn [fst snd] in *. pose proof (cbor_write_pos d). cbn [c_pairs foldr fst snd] in Hf |- *.
  change (foldr _ [] l) with (c_pairs l) in Hf |- *.
  rewrite !app_length in Hf. cbn [c_fields length].
  destruct (N.eqb_spec (N.of_nat (S (length l))) 0); [lia|].
  rewrite <- !(assoc_L (++)), c_name_text by done. cbn [mbind res_bind fst snd].
  rewrite Hd by (done || lia). cbn [mbind res_bind fst snd].
  replace (N.of_nat (S (length l)) - 1)%N with (N.of_nat (length l)) by lia.
  rewrite IH by (done || lia). done.
Qed.
Lemma c_all_good d : c_good d.
Proof.
  induction d as [x|s|l Hl|l Hl] using doc_ind'; intros Hp f rest Hf;
    match type of Hf with context [cbor_write ?d] => pose proof (cbor_write_pos d) end;
    (destruct f as [|f]; [lia|]); cbn [c_value cbor_write] in *.
  - rewrite pull_head by done. done.
  - unfold c_text. rewrite <- (assoc_L (++)), pull_head by done. cbn [mbind res_bind fst snd N.eqb Pos.eqb].
    by rewrite c_take_app.
  - destruct Hp as [Hl1 Hl2]. rewrite <- (assoc_L (++)), pull_head by done. cbn [mbind res_bind fst snd N.eqb Pos.eqb].
    rewrite app_length in Hf. pose proof (c_head_pos 4 (N.of_nat (length l))).
    change (foldr _ [] l) with (c_body l) in *. rewrite c_items_good by (done || lia). done.
  - destruct Hp as [Hl1 Hl2]. rewrite <- (assoc_L (++)), pull_head by done. cbn [mbind res_bind fst snd N.eqb Pos.eqb].
    rewrite app_length in Hf. pose proof (c_head_pos 5 (N.of_nat (length l))).
    change (foldr _ [] l) with (c_pairs l) in *. rewrite c_fields_good by (done || lia). done.
Qed.
Theorem cbor_roundtrip d rest : narrow d → cbor_read (cbor_write d ++ rest) = Ok d.
Proof.
  intros Hp. unfold cbor_read. rewrite (c_all_good d Hp); [done|]. rewrite app_length. lia.
Qed.

Lemma narrow_bytes l : u64 (length l) → narrow (ser_bytes l).
Proof.
  intros Hl. unfold ser_bytes. split; [by rewrite fmap_length|]. clear Hl.
  induction l as [|b l IH]; [done|]. rewrite fmap_cons. split; [|exact IH].
  cbn [narrow]. pose proof (to_N_lt b). lia.
Qed.
Lemma narrow_node {n} (nd : node n) : small nd → narrow (ser_node nd).
Proof.
  intros (Hn & Hr & Hv). unfold ser_node.
  assert (∀ a : arr n, narrow (ser_bytes a)) as Ha.
  { intros a. apply narrow_bytes. by rewrite CodecProofs.arr_length. }
  destruct (var nd) as [c z o s k|k d|v]; cbn [small_variant ser_variant narrow foldr fst snd ser_num] in *;
    repeat split; try done; try apply Ha; try (by destruct Hv); try by apply narrow_bytes.
Qed.
Theorem cbor_faithful : faithful cbor.
Proof.
  intros n nd Hs. cbn [cbor f_read f_write]. rewrite <- (app_nil_r (cbor_write _)). apply cbor_roundtrip.
  by apply narrow_node.
Qed.

(** Reading anything: no panic. *)
Lemma c_pull_no_pan b : c_pull b ≠ Pan.
Proof.
  unfold c_pull. destruct b as [|c b]; [done|]. cbn zeta. case_match; [done|]. case_match; [|done].
  unfold c_arg. case_match; [done|].
  match goal with |- context [read_le ?w ?x] => pose proof (read_le_no_pan w x); by destruct (read_le w x) end.
Qed.
Lemma c_name_no_pan b : c_name b ≠ Pan.
Proof.
  unfold c_name, c_take. pose proof (c_pull_no_pan b). destruct (c_pull b) as [h| |]; cbn [mbind res_bind]; [|done|done].
  by repeat case_match.
Qed.
Lemma c_no_pan f : (∀ b, c_value f b ≠ Pan) ∧ (∀ x b, c_items f x b ≠ Pan) ∧ (∀ x b, c_fields f x b ≠ Pan).
Proof.
  induction f as [|f (IH1 & IH2 & IH3)]; [done|]. repeat split.
  - intros b. cbn [c_value]. pose proof (c_pull_no_pan b). destruct (c_pull b) as [h| |]; cbn [mbind res_bind]; [|done|done].
    case_match; [done|]. case_match; [unfold c_take; by case_match|].
    case_match; [specialize (IH2 h.1.2 h.2); by destruct (c_items f h.1.2 h.2)|].
    case_match; [specialize (IH3 h.1.2 h.2); by destruct (c_fields f h.1.2 h.2)|done].
  - intros x b. cbn [c_items]. case_match; [done|]. specialize (IH1 b).
    destruct (c_value f b) as [v| |]; cbn [mbind res_bind]; [|done|done].
    specialize (IH2 (x - 1)%N v.2). by destruct (c_items f (x - 1) v.2).
  - intros x b. cbn [c_fields]. case_match; [done|]. pose proof (c_name_no_pan b).
    destruct (c_name b) as [s| |]; cbn [mbind res_bind]; [|done|done]. specialize (IH1 s.2).
    destruct (c_value f s.2) as [v| |]; cbn [mbind res_bind]; [|done|done].
    specialize (IH3 (x - 1)%N v.2). by destruct (c_fields f (x - 1) v.2).
Qed.
Lemma cbor_no_pan b : cbor_read b ≠ Pan.
Proof.
  unfold cbor_read. pose proof (proj1 (c_no_pan (2 * length b)) b). by destruct (c_value (2 * length b) b).
Qed.
