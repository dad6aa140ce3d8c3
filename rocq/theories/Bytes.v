(** * RocksDB on bytes refines RocksDB on nodes
    As long as the numbers written fit in 64 bits, executing any program over
    the serialized database gives the same outcome as over [rocks_db], and the
    stored bytes stay the serialization of its contents. *)
From Coq Require Import Strings.Byte NArith.
From stdpp Require Import prelude countable gmap sorting strings.
From Verif Require Import Model Codec CodecProofs.

Local Open Scope nat_scope.

Local Opaque enc_node.
Section Bytes.
  Context {n : nat} (H : list bytes → arr n).
  Implicit Types (s : rocks_st n) (b : brocks_st n).

  (** All numbers in the database fit. *)
  Definition small_st s : Prop :=
    (∀ l nd, committed s !! l = Some nd → small nd) ∧ (∀ p, p ∈ pending s → small p.2).
  (** [b] is the serialization of [s]. *)
  Definition ser s : brocks_st n :=
    BRocks (enc_node <$> committed s) ((λ p, (p.1, enc_node p.2)) <$> pending s).

  Lemma ser_init : ser (b_init (rocks_db n)) = binit.
  Proof using. unfold ser, binit. simpl. by rewrite fmap_empty. Qed.
  Lemma ser_put s l nd : ser (b_put (rocks_db n) s l nd) = bput (ser s) l nd.
  Proof using. unfold ser, bput. simpl. by rewrite fmap_app. Qed.
  Lemma ser_del s l : ser (b_del (rocks_db n) s l) = bdel (ser s) l.
  Proof using. unfold ser, bdel. simpl. by rewrite fmap_delete. Qed.
  Lemma ser_apply m q :
    enc_node <$> apply_batch m q =
    foldl (λ m p, <[p.1 := p.2]> m) (enc_node <$> m) ((λ p : arr n * node n, (p.1, enc_node p.2)) <$> q).
  Proof using.
    revert m. induction q as [|[l nd] q IH]; intros m; [done|].
    rewrite fmap_cons. unfold apply_batch in *. cbn [foldl fst snd]. rewrite IH. by rewrite fmap_insert.
  Qed.
  Lemma ser_flush s : ser (b_flush (rocks_db n) s) = bflush (ser s).
  Proof using. unfold ser, bflush. cbn [b_flush rocks_db committed pending bcommitted bpending]. by rewrite ser_apply. Qed.
  Lemma ser_drop s : ser (b_drop (rocks_db n) s) = bdrop (ser s).
  Proof using. done. Qed.
  Lemma ser_get s l : small_st s → bget (ser s) l = Ok (b_vis (rocks_db n) s !! l).
  Proof using.
    intros [Hs _]. unfold bget. cbn [ser bcommitted b_vis rocks_db]. rewrite lookup_fmap.
    destruct (committed s !! l) as [nd|] eqn:E; [|done]. cbn [fmap option_fmap option_map].
    pose proof (dec_node_enc nd [] (Hs _ _ E)) as Hd. rewrite app_nil_r in Hd. by rewrite Hd.
  Qed.
  Lemma ser_size s : size (bcommitted (ser s)) = size (b_vis (rocks_db n) s).
  Proof using. cbn. apply map_size_fmap. Qed.
  (** Nothing is lost: small states with the same bytes are equal. *)
  Lemma ser_inj s s' : small_st s → small_st s' → ser s = ser s' → s = s'.
  Proof using.
    intros Hs Hs' He. pose proof (f_equal bcommitted He) as Hc. pose proof (f_equal bpending He) as Hp. clear He. destruct s as [m q], s' as [m' q']. cbn in *. f_equal.
    - apply map_eq. intros l.
      pose proof (f_equal (.!! l) Hc) as He. rewrite !lookup_fmap in He.
      destruct Hs as [Hs _], Hs' as [Hs' _]. specialize (Hs l). specialize (Hs' l). cbn in *.
      destruct (m !! l) as [nd|], (m' !! l) as [nd'|]; cbn in *; try done.
      apply (inj Some) in He. f_equal. apply (enc_node_inj nd nd' [] []); [by apply Hs|by apply Hs'|].
      by rewrite He.
    - destruct Hs as [_ Hs], Hs' as [_ Hs']. cbn in *. clear Hc.
      revert q' Hp Hs'. induction q as [|[l nd] q IH]; intros [|[l' nd'] q'] Hp Hs'; try done.
      rewrite !fmap_cons in Hp. cbn [fst snd] in Hp.
      assert (Hl : l = l') by exact (f_equal (λ q, default l (fst <$> head q)) Hp). subst l'.
      assert (Hn : enc_node nd = enc_node nd') by exact (f_equal (λ q, default [] (snd <$> head q)) Hp).
      apply (f_equal tail) in Hp. cbn [tail] in Hp. f_equal.
      + f_equal. apply (enc_node_inj nd nd' [] []).
        * apply (Hs (l, nd)). left.
        * apply (Hs' (l, nd')). left.
        * by rewrite Hn.
      + apply IH; [intros p Hp0; apply Hs; by right|done|intros p Hp0; apply Hs'; by right].
  Qed.

  Theorem brun_run {A} (p : prog n A) s :
    (∀ s', s' ∈ states (rocks_db n) H p s → small_st s') →
    brun H p (ser s) = (out (rocks_db n) H p s, ser (fin (rocks_db n) H p s)) ∧
    bstates H p (ser s) = ser <$> states (rocks_db n) H p s.
  Proof using.
    revert s. induction p as [a|e| | |cs k IH|l k IH|l nd k IH|l k IH|k IH]; intros s Hs;
      assert (Hs0 : small_st s) by (apply Hs; left); unfold out, fin in *.
    - done.
    - done.
    - done.
    - done.
    - cbn [brun run bstates states]. specialize (IH (H cs) s). destruct (run (rocks_db n) H (k (H cs)) s) as [[o st] lg].
      destruct IH as [IH1 IH2]; [intros s' Hs'; apply Hs; by right|]. split; [exact IH1|].
      rewrite fmap_cons. by f_equal.
    - cbn [brun run bstates states]. rewrite ser_get by done.
      destruct (IH (b_vis (rocks_db n) s !! l) s) as [IH1 IH2]; [intros s' Hs'; apply Hs; by right|].
      split; [exact IH1|]. rewrite fmap_cons. by f_equal.
    - cbn [brun run bstates states]. rewrite <- ser_put.
      destruct (IH (b_put (rocks_db n) s l nd)) as [IH1 IH2]; [intros s' Hs'; apply Hs; by right|].
      split; [exact IH1|]. rewrite fmap_cons. by f_equal.
    - cbn [brun run bstates states]. rewrite <- ser_del.
      destruct (IH (b_del (rocks_db n) s l)) as [IH1 IH2]; [intros s' Hs'; apply Hs; by right|].
      split; [exact IH1|]. rewrite fmap_cons. by f_equal.
    - cbn [brun run bstates states]. rewrite <- ser_flush.
      destruct (IH (b_flush (rocks_db n) s)) as [IH1 IH2]; [intros s' Hs'; apply Hs; by right|].
      split; [exact IH1|]. rewrite fmap_cons. by f_equal.
  Qed.
End Bytes.

(** ** A decision procedure for [small_st], used in examples *)
Definition u64_b (x : nat) : bool := (N.of_nat x <? 2 ^ 64)%N.
Definition small_b {n} (nd : node n) : bool :=
  u64_b (refs nd) &&
  match var nd with
  | VBranch c _ _ s _ => u64_b c && u64_b s
  | VLeaf _ _ => true
  | VData v => u64_b (length v)
  end.
Definition small_st_b {n} (s : rocks_st n) : bool :=
  forallb (λ p, small_b p.2) (map_to_list (committed s)) && forallb (λ p, small_b p.2) (pending s).
Lemma u64_b_sound x : u64_b x = true → u64 x.
Proof. apply N.ltb_lt. Qed.
Lemma small_b_sound {n} (nd : node n) : u64 n → small_b nd = true → small nd.
Proof.
  intros Hn Hb. apply andb_prop in Hb as [H1 H2]. split; [done|]. split; [by apply u64_b_sound|].
  unfold small_variant. destruct (var nd) as [c zl ol s k| |v].
  - apply andb_prop in H2 as [H2 H3]. split; by apply u64_b_sound.
  - exact I.
  - by apply u64_b_sound.
Qed.
Lemma small_st_b_sound {n} (s : rocks_st n) : u64 n → small_st_b s = true → small_st s.
Proof.
  intros Hn Hs. apply andb_prop in Hs as [H1 H2]. rewrite !forallb_forall in H1, H2. split.
  - intros l nd Hl. apply elem_of_map_to_list, elem_of_list_In, H1 in Hl. by apply small_b_sound.
  - intros p Hp. apply elem_of_list_In, H2 in Hp. by apply small_b_sound.
Qed.
