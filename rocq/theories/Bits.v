(** * Bits of keys: specification vocabulary and its theory *)
From Coq Require Import Strings.Byte NArith.
From stdpp Require Import prelude countable gmap sorting strings.
From Verif Require Import Model.

Local Open Scope nat_scope.

(** Bits of a byte, most significant first; bits of a byte string. *)
Definition byte_bits (b : byte) : list bool :=
  (λ i, N.testbit (Byte.to_N b) i) <$> [7; 6; 5; 4; 3; 2; 1; 0]%N.
Fixpoint bits (l : bytes) : list bool :=
  match l with [] => [] | b :: l' => byte_bits b ++ bits l' end.

(** Length of the longest common prefix. *)
Fixpoint lcp (a b : list bool) : nat :=
  match a, b with
  | x :: a', y :: b' => if Bool.eqb x y then S (lcp a' b') else 0
  | _, _ => 0
  end.

(** Lexicographic comparison with [false < true]. *)
Fixpoint bcmp (a b : list bool) : comparison :=
  match a, b with
  | [], [] => Eq
  | [], _ :: _ => Lt
  | _ :: _, [] => Gt
  | false :: a', false :: b' => bcmp a' b'
  | true :: a', true :: b' => bcmp a' b'
  | false :: _, true :: _ => Lt
  | true :: _, false :: _ => Gt
  end.

(** ** Lists of booleans *)
Lemma lcp_sym a b : lcp a b = lcp b a.
Proof.
  revert b; induction a as [|x a IH]; intros [|y b]; simpl; auto.
  destruct x, y; simpl; auto.
Qed.
Lemma lcp_refl a : lcp a a = length a.
Proof. induction a as [|[] a IH]; simpl; auto. Qed.
Lemma lcp_le_l a b : lcp a b ≤ length a.
Proof.
  revert b; induction a as [|x a IH]; intros [|y b]; simpl; try lia.
  destruct (Bool.eqb x y); [specialize (IH b)|]; lia.
Qed.
Lemma lcp_le_r a b : lcp a b ≤ length b.
Proof. rewrite lcp_sym. apply lcp_le_l. Qed.
Lemma lcp_full a b : length a = length b → lcp a b = length a → a = b.
Proof.
  revert b; induction a as [|x a IH]; intros [|y b]; simpl; try lia; [done|].
  intros Hl. destruct (Bool.eqb_spec x y) as [->|]; [|lia].
  intros He. f_equal. apply IH; lia.
Qed.
Lemma lcp_lt a b : length a = length b → a ≠ b → lcp a b < length a.
Proof.
  intros Hl Hne. pose proof (lcp_le_l a b).
  destruct (decide (lcp a b = length a)) as [He|]; [|lia].
  by apply lcp_full in He.
Qed.
Lemma lcp_agree a b i : i < lcp a b → nth i a false = nth i b false.
Proof.
  revert b i; induction a as [|x a IH]; intros [|y b] i; simpl; try lia.
  destruct (Bool.eqb_spec x y) as [->|]; [|lia].
  destruct i as [|i]; [done|]. intros. apply IH. lia.
Qed.
Lemma lcp_differ a b : length a = length b → lcp a b < length a →
  nth (lcp a b) a false ≠ nth (lcp a b) b false.
Proof.
  revert b; induction a as [|x a IH]; intros [|y b]; simpl; try lia.
  intros Hl. destruct (Bool.eqb_spec x y) as [->|]; [|done].
  intros. apply IH; lia.
Qed.
Lemma lcp_ge a b s : s ≤ length a → s ≤ length b →
  (∀ i, i < s → nth i a false = nth i b false) → s ≤ lcp a b.
Proof.
  revert b s; induction a as [|x a IH]; intros [|y b] s; simpl; try lia.
  intros H1 H2 Hs. destruct s as [|s]; [lia|].
  pose proof (Hs 0 ltac:(lia)) as H0; simpl in H0; subst y.
  rewrite Bool.eqb_reflx. apply le_n_S. apply IH; [lia|lia|].
  intros i Hi. apply (Hs (S i)). lia.
Qed.
Lemma lcp_eq a b s : length a = length b → s < length a →
  (∀ i, i < s → nth i a false = nth i b false) →
  nth s a false ≠ nth s b false → lcp a b = s.
Proof.
  intros Hl Hs Hag Hd.
  assert (s ≤ lcp a b) by (apply lcp_ge; [lia|lia|done]).
  destruct (decide (s < lcp a b)) as [Hlt|]; [|lia].
  by apply lcp_agree in Hlt.
Qed.
Lemma lcp_ultra a b c : min (lcp a b) (lcp b c) ≤ lcp a c.
Proof.
  revert b c; induction a as [|x a IH]; intros [|y b] [|z c]; simpl; try lia.
  destruct x, y, z; simpl; specialize (IH b c); lia.
Qed.
Lemma lcp_ultra_lt a b c : lcp a b < lcp b c → lcp a c = lcp a b.
Proof.
  intros Hlt. pose proof (lcp_ultra a b c). pose proof (lcp_ultra a c b).
  rewrite (lcp_sym c b) in *. lia.
Qed.
Lemma lcp_app_eq p a b : lcp (p ++ a) (p ++ b) = length p + lcp a b.
Proof. induction p as [|[] p IH]; simpl; auto. Qed.
Lemma lcp_app_ne p q a b : length p = length q → p ≠ q → lcp (p ++ a) (q ++ b) = lcp p q.
Proof.
  revert q; induction p as [|x p IH]; intros [|y q]; simpl; try lia; [done|].
  intros Hl Hne. destruct (Bool.eqb_spec x y) as [->|]; [|done].
  f_equal. apply IH; [lia|congruence].
Qed.

Lemma bcmp_refl a : bcmp a a = Eq.
Proof. induction a as [|[] a IH]; simpl; auto. Qed.
Lemma bcmp_eq a b : bcmp a b = Eq → a = b.
Proof.
  revert b; induction a as [|[] a IH]; intros [|[] b]; simpl; try done;
    intros Hc; f_equal; auto.
Qed.
Lemma bcmp_opp a b : bcmp b a = CompOpp (bcmp a b).
Proof. revert b; induction a as [|[] a IH]; intros [|[] b]; simpl; auto. Qed.
Lemma bcmp_lt_iff a b : length a = length b →
  bcmp a b = Lt ↔
    lcp a b < length a ∧ nth (lcp a b) a false = false ∧ nth (lcp a b) b false = true.
Proof.
  revert b; induction a as [|x a IH]; intros [|y b]; simpl; try lia.
  - intros _. split; [done|lia].
  - intros Hl. injection Hl as Hl. specialize (IH b Hl).
    destruct x, y; simpl.
    + rewrite IH. split; intros (?&?&?); repeat split; auto; lia.
    + split; [done|]. intros (_&?&?); done.
    + split; [|done]. intros _. repeat split; lia.
    + rewrite IH. split; intros (?&?&?); repeat split; auto; lia.
Qed.
Lemma bcmp_app p q a b : length p = length q →
  bcmp (p ++ a) (q ++ b) = match bcmp p q with Eq => bcmp a b | c => c end.
Proof.
  revert q; induction p as [|x p IH]; intros [|y q]; simpl; try lia; [done|].
  intros Hl. destruct x, y; simpl; auto.
Qed.

(** ** Byte facts, by exhaustive computation *)
Definition all_bytes : list byte :=
  (λ i, default x00 (Byte.of_N (N.of_nat i))) <$> seq 0 256.
Lemma all_bytes_complete b : In b all_bytes.
Proof.
  unfold all_bytes. apply elem_of_list_In, elem_of_list_fmap.
  exists (N.to_nat (Byte.to_N b)). split.
  - rewrite N2Nat.id, Byte.of_to_N. done.
  - apply elem_of_seq. pose proof (Byte.to_N_bounded b). lia.
Qed.
Lemma byte_sweep (P : byte → bool) : forallb P all_bytes = true → ∀ b, P b = true.
Proof. intros Hf b. rewrite forallb_forall in Hf. apply Hf, all_bytes_complete. Qed.
Lemma byte_sweep2 (P : byte → byte → bool) :
  forallb (λ x, forallb (P x) all_bytes) all_bytes = true → ∀ x y, P x y = true.
Proof. intros Hf x y. apply byte_sweep. apply (byte_sweep (λ x, forallb (P x) all_bytes)). done. Qed.

Lemma byte_bits_length b : length (byte_bits b) = 8.
Proof. done. Qed.

Lemma byte_cmp_bits x y : bcmp (byte_bits x) (byte_bits y) = N.compare (Byte.to_N x) (Byte.to_N y).
Proof.
  pose (P x y := match bcmp (byte_bits x) (byte_bits y), N.compare (Byte.to_N x) (Byte.to_N y) with
        | Eq, Eq | Lt, Lt | Gt, Gt => true | _, _ => false end).
  assert (P x y = true) as HP by (apply byte_sweep2; vm_compute; reflexivity).
  unfold P in HP. destruct (bcmp _ _), (N.compare _ _); done.
Qed.
Lemma byte_bits_inj x y : byte_bits x = byte_bits y → x = y.
Proof.
  intros He. assert (N.compare (Byte.to_N x) (Byte.to_N y) = Eq) as Hc.
  { rewrite <- byte_cmp_bits, He. apply bcmp_refl. }
  apply N.compare_eq in Hc.
  assert (Some x = Some y) as Hs by (rewrite <- !Byte.of_to_N, Hc; done).
  by injection Hs.
Qed.
Lemma byte_split_bit i x y : x ≠ y →
  split_bit_at i x y = 8 * i + lcp (byte_bits x) (byte_bits y).
Proof.
  intros Hne. unfold split_bit_at.
  pose (P x y := if decide (x = y) then true else
          (7 - fast_log_2 (xor_byte x y) =? lcp (byte_bits x) (byte_bits y))
          && (fast_log_2 (xor_byte x y) <=? 7)).
  assert (P x y = true) as HP by (apply byte_sweep2; vm_compute; reflexivity).
  unfold P in HP. rewrite decide_False in HP by done.
  apply andb_true_iff in HP as [H1 H2].
  apply Nat.eqb_eq in H1. apply Nat.leb_le in H2. lia.
Qed.
Lemma byte_extract b s : s < 8 →
  N.eqb (N.land (N.shiftr (Byte.to_N b) (N.of_nat (7 - s))) 1) 0 = negb (nth s (byte_bits b) false).
Proof.
  intros Hs.
  pose (P b := forallb (λ s, Bool.eqb
    (N.eqb (N.land (N.shiftr (Byte.to_N b) (N.of_nat (7 - s))) 1) 0)
    (negb (nth s (byte_bits b) false))) (seq 0 8)).
  assert (P b = true) as HP by (apply byte_sweep; vm_compute; reflexivity).
  unfold P in HP. rewrite forallb_forall in HP.
  apply Bool.eqb_prop. apply HP. apply in_seq. lia.
Qed.

(** ** Byte strings *)
Lemma bits_length l : length (bits l) = 8 * length l.
Proof. induction l as [|b l IH]; [done|]. cbn [bits]. rewrite app_length, IH, byte_bits_length. simpl. lia. Qed.
Lemma bits_inj l1 l2 : bits l1 = bits l2 → l1 = l2.
Proof.
  revert l2; induction l1 as [|x l1 IH]; intros [|y l2]; cbn [bits]; try done.
  intros He. apply app_inj_1 in He as [Hx Hl]; [|done].
  f_equal; [by apply byte_bits_inj|auto].
Qed.
Lemma bytes_cmp_bits a b : bytes_cmp a b = bcmp (bits a) (bits b).
Proof.
  revert b; induction a as [|x a IH]; intros [|y b]; [done|done|by destruct x|].
  cbn [bits bytes_cmp]. rewrite bcmp_app by done.
  rewrite byte_cmp_bits, IH. done.
Qed.
Lemma first_diff_bits i a b : length a = length b →
  first_diff i a b = if decide (a = b) then None else Some (8 * i + lcp (bits a) (bits b)).
Proof.
  revert i b; induction a as [|x a IH]; intros i [|y b]; intros Hl; simpl in Hl; try lia; [done|].
  cbn [first_diff bits]. destruct (decide (x = y)) as [<-|Hxy].
  - rewrite IH by lia. destruct (decide (a = b)) as [<-|Hab].
    + by rewrite decide_True.
    + rewrite decide_False by congruence. rewrite lcp_app_eq, byte_bits_length. f_equal. lia.
  - rewrite decide_False by congruence. rewrite byte_split_bit by done.
    rewrite lcp_app_ne; [done|done|]. intros ?; apply Hxy. by apply byte_bits_inj.
Qed.
Lemma adjacent_split_bits j a b : length a = length b → a ≠ [] →
  adjacent_split j a b =
    if decide (a = b) then Err "Attempted to insert item with duplicate keys"
    else Ok (Some (8 * j + lcp (bits a) (bits b))).
Proof.
  revert j b; induction a as [|x a IH]; intros j [|y b] Hl Hne; simpl in Hl; try lia; [done|].
  cbn [adjacent_split bits]. destruct (decide (x = y)) as [<-|Hxy].
  - destruct a as [|x' a'].
    + destruct b; [|simpl in Hl; lia]. by rewrite decide_True.
    + rewrite IH by (done || lia). destruct (decide (x' :: a' = b)) as [<-|Hab].
      * by rewrite decide_True.
      * rewrite decide_False by congruence. rewrite lcp_app_eq, byte_bits_length.
        do 2 f_equal. lia.
  - rewrite decide_False by congruence. rewrite byte_split_bit by done.
    rewrite lcp_app_ne; [done|done|]. intros ?; apply Hxy. by apply byte_bits_inj.
Qed.

(** ** Keys *)
Lemma arr_length {n} (a : arr n) : length (arr_list a) = n.
Proof. exact (proj2_sig a). Qed.
Lemma arr_inj {n} (a b : arr n) : arr_list a = arr_list b → a = b.
Proof. intros He. unfold arr_list in He. by apply (sig_eq_pi _). Qed.

(** The [i]-th bit of a key, and the first bit where two keys differ. *)
Definition bit {n} (a : arr n) (i : nat) : bool := nth i (bits a) false.
Definition klcp {n} (a b : arr n) : nat := lcp (bits a) (bits b).
Definition klt {n} (a b : arr n) : Prop := arr_cmp a b = Lt.

Section Keys.
  Context {n : nat}.
  Implicit Types a b c : arr n.

  Lemma kbits_length a : length (bits a) = 8 * n.
  Proof. by rewrite bits_length, arr_length. Qed.
  Lemma klcp_sym a b : klcp a b = klcp b a.
  Proof. apply lcp_sym. Qed.
  Lemma klcp_refl a : klcp a a = 8 * n.
  Proof. unfold klcp. by rewrite lcp_refl, kbits_length. Qed.
  Lemma klcp_le a b : klcp a b ≤ 8 * n.
  Proof. rewrite <- (kbits_length a). apply lcp_le_l. Qed.
  Lemma klcp_lt a b : a ≠ b → klcp a b < 8 * n.
  Proof.
    intros Hne. rewrite <- (kbits_length a). apply lcp_lt; [by rewrite !kbits_length|].
    intros He. apply Hne. by apply arr_inj, bits_inj.
  Qed.
  Lemma klcp_ne a b : klcp a b < 8 * n → a ≠ b.
  Proof. intros Hlt ->. rewrite klcp_refl in Hlt. lia. Qed.
  Lemma klcp_agree a b i : i < klcp a b → bit a i = bit b i.
  Proof. apply lcp_agree. Qed.
  Lemma klcp_differ a b : klcp a b < 8 * n → bit a (klcp a b) ≠ bit b (klcp a b).
  Proof. intros. apply lcp_differ; by rewrite !kbits_length. Qed.
  Lemma klcp_ge a b s : s ≤ 8 * n → (∀ i, i < s → bit a i = bit b i) → s ≤ klcp a b.
  Proof. intros Hs Hag. apply lcp_ge; [by rewrite kbits_length..|done]. Qed.
  Lemma klcp_eq a b s : s < 8 * n → (∀ i, i < s → bit a i = bit b i) →
    bit a s ≠ bit b s → klcp a b = s.
  Proof. intros. apply lcp_eq; by rewrite ?kbits_length. Qed.
  Lemma klcp_ultra a b c : min (klcp a b) (klcp b c) ≤ klcp a c.
  Proof. apply lcp_ultra. Qed.
  Lemma klcp_ultra_lt a b c : klcp a b < klcp b c → klcp a c = klcp a b.
  Proof. apply lcp_ultra_lt. Qed.

  Lemma arr_cmp_bits a b : arr_cmp a b = bcmp (bits a) (bits b).
  Proof. apply bytes_cmp_bits. Qed.
  Lemma arr_cmp_refl a : arr_cmp a a = Eq.
  Proof. rewrite arr_cmp_bits. apply bcmp_refl. Qed.
  Lemma arr_cmp_eq a b : arr_cmp a b = Eq → a = b.
  Proof. rewrite arr_cmp_bits. intros Hc. by apply arr_inj, bits_inj, bcmp_eq. Qed.
  Lemma arr_cmp_opp a b : arr_cmp b a = CompOpp (arr_cmp a b).
  Proof. rewrite !arr_cmp_bits. apply bcmp_opp. Qed.

  Lemma klt_iff a b : klt a b ↔
    klcp a b < 8 * n ∧ bit a (klcp a b) = false ∧ bit b (klcp a b) = true.
  Proof.
    unfold klt. rewrite arr_cmp_bits, bcmp_lt_iff by (by rewrite !kbits_length).
    by rewrite kbits_length.
  Qed.
  Lemma klt_ne a b : klt a b → a ≠ b.
  Proof. intros Hlt ->. unfold klt in Hlt. by rewrite arr_cmp_refl in Hlt. Qed.
  Lemma klt_irrefl a : ¬ klt a a.
  Proof. intros ?%klt_ne. done. Qed.
  Lemma klt_total a b : klt a b ∨ a = b ∨ klt b a.
  Proof.
    unfold klt. rewrite (arr_cmp_opp a b).
    destruct (arr_cmp a b) eqn:Hc; auto. right; left. by apply arr_cmp_eq.
  Qed.
  Lemma klt_trans a b c : klt a b → klt b c → klt a c.
  Proof.
    rewrite !klt_iff. intros (H1&H2&H3) (H4&H5&H6).
    destruct (Nat.lt_total (klcp a b) (klcp b c)) as [Hlt|[Heq|Hgt]].
    - rewrite (klcp_ultra_lt _ _ _ Hlt). repeat split; [lia|done|].
      rewrite <- (klcp_agree b c) by done. done.
    - rewrite Heq in H3. congruence.
    - assert (klcp a c = klcp b c) as ->.
      { rewrite (klcp_sym a c), (klcp_sym b c). apply klcp_ultra_lt.
        rewrite (klcp_sym b a), (klcp_sym c b). done. }
      repeat split; [lia| |done]. rewrite (klcp_agree a b) by lia. done.
  Qed.
  Lemma klt_asym a b : klt a b → ¬ klt b a.
  Proof. intros H1 H2. by apply (klt_irrefl a), (klt_trans a b a). Qed.
  (** Three keys in order: the prefix common to the outer two. *)
  Lemma klcp_sorted a b c : klt a b → klt b c → klcp a c = min (klcp a b) (klcp b c).
  Proof.
    rewrite !klt_iff. intros (H1&H2&H3) (H4&H5&H6).
    destruct (Nat.lt_total (klcp a b) (klcp b c)) as [Hlt|[Heq|Hgt]].
    - rewrite (klcp_ultra_lt _ _ _ Hlt). lia.
    - rewrite Heq in H3. congruence.
    - rewrite (klcp_sym a c). rewrite (klcp_ultra_lt c b a); rewrite (klcp_sym c b), ?(klcp_sym b a); lia.
  Qed.
  Lemma klcp_consec_ne a b c : klt a b → klt b c → klcp a b ≠ klcp b c.
  Proof. rewrite !klt_iff. intros (H1&H2&H3) (H4&H5&H6) Heq. rewrite Heq in H3. congruence. Qed.

  Lemma arr_le_iff a b : arr_le a b ↔ klt a b ∨ a = b.
  Proof.
    unfold arr_le, arr_leb, klt. destruct (arr_cmp a b) eqn:Hc.
    - apply arr_cmp_eq in Hc. naive_solver.
    - naive_solver.
    - split; [done|]. intros [?| ->]; [done|]. by rewrite arr_cmp_refl in Hc.
  Qed.
  Lemma arr_ltb_spec a b : arr_ltb a b = true ↔ klt a b.
  Proof. unfold arr_ltb, klt. destruct (arr_cmp a b); naive_solver. Qed.
  Lemma arr_ltb_false a b : arr_ltb a b = false ↔ ¬ klt a b.
  Proof. rewrite <- arr_ltb_spec. by destruct (arr_ltb a b). Qed.

  Global Instance arr_le_total : Total (@arr_le n).
  Proof. intros a b. rewrite !arr_le_iff. destruct (klt_total a b) as [|[|]]; naive_solver. Qed.
  Global Instance arr_le_trans : Transitive (@arr_le n).
  Proof.
    intros a b c. rewrite !arr_le_iff. intros [H1| ->] [H2| ->]; auto.
    left. by eapply klt_trans.
  Qed.
  Global Instance arr_le_refl : Reflexive (@arr_le n).
  Proof. intros a. rewrite arr_le_iff. auto. Qed.
  Global Instance arr_le_antisym : AntiSymm (=) (@arr_le n).
  Proof.
    intros a b. rewrite !arr_le_iff. intros [H1|?] [H2|?]; try done.
    by apply klt_asym in H1.
  Qed.

  (** [choose_zero] reads the bit. *)
  Lemma bit_byte a i : i < 8 * n →
    ∃ v, (a : bytes) !! (i / 8) = Some v ∧ bit a i = nth (i mod 8) (byte_bits v) false.
  Proof.
    unfold bit. rewrite <- (arr_length a) at 1.
    generalize (arr_list a) as l. intros l. clear a. revert i.
    induction l as [|v l IH]; intros i; simpl length; intros Hi; [lia|].
    destruct (decide (i < 8)) as [Hlt|Hge].
    - exists v. rewrite Nat.div_small, Nat.mod_small by done. split; [done|].
      cbn [bits]. rewrite app_nth1 by (rewrite byte_bits_length; lia). done.
    - destruct (IH (i - 8)) as (w & Hw & Hb); [lia|].
      exists w.
      assert (i / 8 = S ((i - 8) / 8)) as ->.
      { replace i with ((i - 8) + 1 * 8) at 1 by lia. rewrite Nat.div_add by lia. lia. }
      assert (i mod 8 = (i - 8) mod 8) as ->.
      { replace i with ((i - 8) + 1 * 8) at 1 by lia. by rewrite Nat.mod_add by lia. }
      split; [done|]. cbn [bits].
      rewrite app_nth2 by (rewrite byte_bits_length; lia).
      rewrite byte_bits_length. done.
  Qed.
  Lemma choose_zero_ok a i : i < 8 * n → choose_zero a i = Ok (negb (bit a i)).
  Proof.
    intros Hi. destruct (bit_byte a i Hi) as (v & Hv & Hb).
    unfold choose_zero. rewrite Hv, Hb. f_equal. apply byte_extract.
    apply Nat.mod_upper_bound. lia.
  Qed.
  Lemma choose_zero_err a i : 8 * n ≤ i →
    choose_zero a i = Err "Designated bit exceeds key length".
  Proof.
    intros Hi. unfold choose_zero. rewrite lookup_ge_None_2; [done|].
    rewrite arr_length. apply Nat.div_le_lower_bound; lia.
  Qed.
End Keys.

(** ** The byte-level primitives, in bit terms *)
Section Util.
  Context {n : nat}.
  Implicit Types a b : arr n.

  Lemma first_diff_key a b :
    first_diff 0 a b = if decide (a = b) then None else Some (klcp a b).
  Proof.
    rewrite first_diff_bits by (by rewrite !arr_length).
    destruct (decide (a = b)) as [->|Hne].
    - by rewrite decide_True.
    - rewrite decide_False; [done|]. intros ?. by apply Hne, arr_inj.
  Qed.
  Lemma adjacent_split_key a b : 0 < n →
    adjacent_split 0 a b =
      if decide (a = b) then Err "Attempted to insert item with duplicate keys"
      else Ok (Some (klcp a b)).
  Proof.
    intros Hn. rewrite adjacent_split_bits.
    - destruct (decide (a = b)) as [->|Hne].
      + by rewrite decide_True.
      + rewrite decide_False; [done|]. intros ?. by apply Hne, arr_inj.
    - by rewrite !arr_length.
    - intros He. pose proof (arr_length a) as Hl. rewrite He in Hl. simpl in Hl. lia.
  Qed.

  (** [fast_log_2] is the integer logarithm on non-zero bytes. *)
  Lemma fast_log_2_spec (b : byte) : b ≠ x00 → N.of_nat (fast_log_2 (Byte.to_N b)) = N.log2 (Byte.to_N b).
  Proof.
    intros Hb.
    pose (P (b : byte) := if decide (b = x00) then true else
       (N.of_nat (fast_log_2 (Byte.to_N b)) =? N.log2 (Byte.to_N b))%N).
    assert (P b = true) as HP by (apply byte_sweep; vm_compute; reflexivity).
    unfold P in HP. rewrite decide_False in HP by done. by apply N.eqb_eq.
  Qed.
End Util.
