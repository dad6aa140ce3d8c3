(** * All layers together: machine integers over a serialized RocksDB

    Sequences of operations are executed over stored bytes (Codec.v) by the
    functions with machine integers (Machine.v) and shown to have the outcomes
    of Model.v; the database holds the serialization of the model's.  Unlike
    [brun_run] (Bytes.v), nothing is assumed of the numbers stored: they are
    bounded by what the execution has done so far (Counts.v). *)
From Coq Require Import Strings.Byte NArith.
From stdpp Require Import prelude countable gmap sorting strings.
From Verif Require Import Model Bits Trie Store Spec Logic RefCount Weak Claims Live Struct Reads Hist Need Codec CodecProofs Bytes Machine Counts MachineProofs.

Local Open Scope nat_scope.

(** ** Executions over bytes *)
Section Def.
  Context {n : nat} (H : list bytes → arr n) {V : Type}.
  (** As [run_fault]: operation number [i] on the database fails. *)
  Fixpoint brun_fault {A} (i : nat) (p : prog n A) (s : brocks_st n) : outcome A * brocks_st n :=
    match p with
    | Ret a => (ROk a, s)
    | Throw e => (RErr e, s)
    | Panic => (RPanic, s)
    | Fuel => (RFuel, s)
    | Hash cs k => brun_fault i (k (H cs)) s
    | Get l k =>
        match i with
        | 0 => (RErr "database failure", s)
        | S i' =>
            match bget s l with
            | Ok o => brun_fault i' (k o) s
            | Err e => (RErr e, s)
            | Pan => (RPanic, s)
            end
        end
    | Put l nd k =>
        match i with 0 => (RErr "database failure", s) | S i' => brun_fault i' k (bput s l nd) end
    | Del l k =>
        match i with 0 => (RErr "database failure", s) | S i' => brun_fault i' k (bdel s l) end
    | Flush k =>
        match i with 0 => (RErr "database failure", bdrop s) | S i' => brun_fault i' k (bflush s) end
    end.
  Definition bop_step (ex : call n V → prog n unit) (s : brocks_st n) (o : op n V) : outcome unit * brocks_st n :=
    match o with
    | OpCall c => brun H (ex c) s
    | OpFault c i => brun_fault i (ex c) s
    | OpRemove r => brun H (remove (3 * size (bcommitted s) + 2) r) s
    | OpRestart => (ROk tt, bdrop s)
    end.
  Fixpoint bsession (ex : call n V → prog n unit) (s : brocks_st n) (os : list (op n V)) :
      list (outcome unit * brocks_st n) :=
    match os with
    | [] => []
    | o :: os' => bop_step ex s o :: bsession ex (bop_step ex s o).2 os'
    end.
  (** Every string hashed is shorter than 2^64 bytes. *)
  Definition short (lg : list (list bytes)) : Prop := ∀ x b, x ∈ lg → b ∈ x → u64 (length b).
End Def.

Lemma u64_le a b : a ≤ b → u64 b → u64 a.
Proof. unfold u64. lia. Qed.
Lemma fits_u64 w a : (w ≤ 64)%N → fits w a → u64 a.
Proof.
  unfold fits, u64. intros Hw Ha. eapply N.lt_le_trans; [exact Ha|]. by apply N.pow_le_mono_r.
Qed.

Section Small.
  Context {n : nat} (Hn : 0 < n) (H : list bytes → arr n).
  Context {V : Type} (enc : V → res bytes) (dec : bytes → res V).
  Notation RB := (rocks_db n).
  Implicit Types (s : rocks_st n) (st : b_st RB) (lg : list (list bytes)).
  Lemma brun_fault_run {A} (p : prog n A) i s :
    (∀ s', s' ∈ states RB H p s → small_st s') →
    brun_fault H i p (ser s) = ((run_fault RB H i p s).1, ser (run_fault RB H i p s).2).
  Proof.
    revert i s. induction p as [a|e| | |cs k IH|l k IH|l nd k IH|l k IH|k IH]; intros i s Hs;
      assert (Hs0 : small_st s) by (apply Hs; left); try done; cbn [brun_fault run_fault].
    - apply IH. intros s' Hs'. apply Hs. by right.
    - destruct i as [|i]; [done|]. rewrite ser_get by done. apply IH. intros s' Hs'. apply Hs. by right.
    - destruct i as [|i]; [done|]. rewrite <- ser_put. apply IH. intros s' Hs'. apply Hs. by right.
    - destruct i as [|i]; [done|]. rewrite <- ser_del. apply IH. intros s' Hs'. apply Hs. by right.
    - destruct i as [|i]; [done|]. rewrite <- ser_flush. apply IH. intros s' Hs'. apply Hs. by right.
  Qed.

  (** It is enough to look at what is visible once the queue is written: every
      queued node was in that view when it was queued. *)
  Definition vsmall s : Prop := ∀ l nd, apply_batch (committed s) (pending s) !! l = Some nd → small nd.
  Lemma small_states {A} (p : prog n A) s : (∀ s', s' ∈ states RB H p s → vsmall s') → small_st s →
    ∀ s', s' ∈ states RB H p s → small_st s'.
  Proof.
    revert s. induction p as [a|e| | |cs k IH|l k IH|l nd k IH|l k IH|k IH]; intros s Hv Hs s' [->|Hin]%elem_of_cons;
      try done; try (by apply elem_of_nil in Hin).
    - eapply IH; [|done|exact Hin]. intros s1 H1. apply Hv. by right.
    - eapply IH; [|done|exact Hin]. intros s1 H1. apply Hv. by right.
    - eapply IH; [| |exact Hin]; [intros s1 H1; apply Hv; by right|]. destruct Hs as [Hs1 Hs2]. split; [done|].
      intros q [Hq|Hq]%elem_of_app; [by apply Hs2|]. apply elem_of_list_singleton in Hq as ->. cbn [snd].
      eapply (Hv (b_put RB s l nd)); [right; by destruct k; left|]. cbn [b_put rocks_db committed pending].
      rewrite apply_batch_app. apply lookup_insert.
    - eapply IH; [| |exact Hin]; [intros s1 H1; apply Hv; by right|]. destruct Hs as [Hs1 Hs2]. split; [|done].
      cbn. intros l' nd' [_ Hl]%lookup_delete_Some. by eapply Hs1.
    - eapply IH; [| |exact Hin]; [intros s1 H1; apply Hv; by right|]. split; [|cbn; intros q Hq; by apply elem_of_nil in Hq].
      cbn. intros l nd Hl. eapply (Hv s); [left|exact Hl].
  Qed.
  Lemma used_vsmall L st lg K W : used RB H enc dec st lg K W → no_collision H L → (∀ x, x ∈ lg → x ∈ L) → short L →
    u64 (8 * n) → u64 (1 + K) → u64 W → vsmall st.
  Proof.
    intros Hu Hc HL Hs Hb HK HW l nd Hl.
    destruct (used_inv Hn RB H enc dec L st lg K W Hu Hc HL) as [[_ [Hsh Hcnt]] [_ Hr]].
    change (apply_batch (committed st) (pending st)) with (bview (B := RB) st) in Hl.
    specialize (Hcnt l nd Hl). destruct (Hsh l nd Hl) as (o & Ho & Hwf & _ & Hv).
    split; [by eapply u64_le; [|exact Hb]; lia|]. split; [eapply u64_le; [|exact HW]; by eapply Hr|].
    rewrite <- Hv in *. destruct o as [t|k e]; cbn [ovar] in *.
    - destruct t as [k e|t1 t2]; cbn [tvar small_variant vsize] in *; [done|]. split; [by eapply u64_le|].
      destruct Hwf as (_ & _ & Hlt). eapply u64_le; [|exact Hb]. by apply Nat.lt_le_incl, tsplit_lt.
    - unfold opre_ok in Ho. cbn [opre] in Ho. apply Forall_cons in Ho as [Ho _]. cbn [small_variant]. eapply Hs; [exact Ho|]. unfold data_in.
      right; right; left.
  Qed.
  Theorem used_small L st lg K W : used RB H enc dec st lg K W → no_collision H L → (∀ x, x ∈ lg → x ∈ L) → short L →
    u64 (8 * n) → u64 (1 + K) → u64 W → small_st st.
  Proof.
    intros Hu Hc HL Hs Hb. revert HL.
    induction Hu as [|st lg K W c st' Hu IH Hst|st lg K W r st' Hu IH Hst|st lg K W Hu IH]; intros HL HK HW.
    - split; [intros l nd Hl; cbn in Hl; by rewrite lookup_empty in Hl|intros q Hq; by apply elem_of_nil in Hq].
    - eapply small_states; [| |exact Hst].
      + intros st1 H1. eapply used_vsmall; [by eapply used_call|exact Hc|done|exact Hs|done..].
      + apply IH; [intros x Hx; apply HL, elem_of_app; by left| |].
        * eapply u64_le; [|exact HK]. lia.
        * eapply u64_le; [|exact HW]. lia.
    - eapply small_states; [| |exact Hst].
      + intros st1 H1. eapply used_vsmall; [by eapply used_remove|exact Hc|done|exact Hs|done..].
      + apply IH; [done|done|]. eapply u64_le; [|exact HW]. lia.
    - destruct (IH HL HK HW) as [H1 _]. split; [done|]. intros q Hq. by apply elem_of_nil in Hq.
  Qed.
End Small.

(** An insertion, without dropping its result. *)
Lemma used_insertion {n} (B : backend n) (H : list bytes → arr n) {V} (enc : V → res bytes) (dec : bytes → res V)
    st lg K W D prev ks vs : used B H enc dec st lg K W →
  used B H enc dec (fin B H (insert enc D prev ks vs) st) (lg ++ hlog B H (insert enc D prev ks vs) st)
    (K + length ks) (W + writes B H (insert enc D prev ks vs) st).
Proof.
  intros Hu. set (p := insert enc D prev ks vs). destruct (drop_result B H p st) as (E1 & E2 & E3).
  change (p ;; mret tt) with (exec enc dec (CInsert D prev ks vs)) in E1, E2, E3.
  rewrite <- E2, <- E3. eapply (used_call B H enc dec st lg K W (CInsert D prev ks vs)); [exact Hu|].
  rewrite E1. apply run_in_states.
Qed.

(** What the bytes show of an operation. *)
Definition in_bytes {n A} (x : outcome A * rocks_st n) : outcome A * brocks_st n := (x.1, ser x.2).

Section Stack.
  Context (M : build) {n : nat} (Hn : 0 < n) (H : list bytes → arr n).
  Context {V : Type} (enc : V → res bytes) (dec : bytes → res V).
  Context (Hbits : fits (wptr M) (8 * n)) (Hr64 : (wref M ≤ 64)%N) (Hp64 : (wptr M ≤ 64)%N).
  Notation RB := (rocks_db n).
  Implicit Types (s : rocks_st n) (st : b_st RB) (lg : list (list bytes)).

  Lemma call_small st lg K W c st' : used RB H enc dec st lg K W →
    no_collision H (lg ++ hlog RB H (exec enc dec c) st) → short (lg ++ hlog RB H (exec enc dec c) st) →
    fits (wref M) (1 + K + keys_of c) → fits (wref M) (W + writes RB H (exec enc dec c) st + 1) →
    st' ∈ states RB H (exec enc dec c) st → small_st st'.
  Proof.
    intros Hu Hc Hsh HK HW Hin.
    eapply (used_small Hn H enc dec); [by eapply used_call|exact Hc|done|exact Hsh|exact (fits_u64 _ _ Hp64 Hbits)| |].
    - eapply fits_u64; [exact Hr64|]. by rewrite Nat.add_assoc.
    - eapply fits_u64; [exact Hr64|]. eapply fits_le; [|exact HW]. lia.
  Qed.
  Lemma remove_small st lg K W r st' : used RB H enc dec st lg K W → no_collision H lg → short lg →
    fits (wref M) (1 + K) → fits (wref M) (W + writes RB H (remove_prog RB st r) st + 1) →
    st' ∈ states RB H (remove_prog RB st r) st → small_st st'.
  Proof.
    intros Hu Hc Hsh HK HW Hin.
    eapply (used_small Hn H enc dec); [by eapply used_remove|exact Hc|done|exact Hsh|exact (fits_u64 _ _ Hp64 Hbits)|exact (fits_u64 _ _ Hr64 HK)|].
    eapply fits_u64; [exact Hr64|]. eapply fits_le; [|exact HW]. lia.
  Qed.
  (** A program that is [alike] one with small states. *)
  Lemma alike_bytes {A} (p' p : prog n A) st : alike RB H p' p st → (∀ s', s' ∈ states RB H p st → small_st s') →
    brun H p' (ser st) = (out RB H p st, ser (fin RB H p st)) ∧
    ∀ i, brun_fault H i p' (ser st) = in_bytes (run_fault RB H i p st).
  Proof.
    intros (E1 & E2 & E3 & E4) Hs. rewrite <- E2 in Hs. split.
    - destruct (brun_run H p' st Hs) as [-> _]. unfold out, fin. by rewrite E1.
    - intros i. rewrite (brun_fault_run H p' i st Hs), E4. done.
  Qed.
  Theorem bsession_from st lg K W os : used RB H enc dec st lg K W →
    no_collision H (lg ++ session_log RB H enc dec st os) → short (lg ++ session_log RB H enc dec st os) →
    session_fits RB H enc dec M st os →
    fits (wref M) (1 + K + session_keys os) → fits (wref M) (W + session_writes RB H enc dec st os + 1) →
    bsession H (m_exec M enc dec) (ser st) os = in_bytes <$> session RB H (exec enc dec) st os.
  Proof.
    revert st lg K W. induction os as [|o os IH]; intros st lg K W Hu Hc Hsh Hf HK HW; [done|].
    cbn [bsession session session_log session_fits session_keys session_writes foldr] in *.
    destruct Hf as (Hf & Hw1 & Hw2 & Hfs). fold (session_keys os) in HK.
    assert (bop_step H (m_exec M enc dec) (ser st) o = in_bytes (op_step RB H (exec enc dec) st o)) as Ho.
    { assert (∀ c, op_prog RB enc dec st o = exec enc dec c → op_keys o = keys_of c → call_fits M c →
        alike RB H (m_exec M enc dec c) (exec enc dec c) st ∧
        ∀ s', s' ∈ states RB H (exec enc dec c) st → small_st s') as Ha.
      { intros c Hp Hk Hfc. rewrite Hp, ?Hk in *.
        assert (∀ x, x ∈ lg ++ hlog RB H (exec enc dec c) st → x ∈ lg ++ hlog RB H (exec enc dec c) st ++
          session_log RB H enc dec (op_step RB H (exec enc dec) st o).2 os) as Hsub.
        { intros x. rewrite !elem_of_app. naive_solver. }
        assert (no_collision H (lg ++ hlog RB H (exec enc dec c) st)) as Hc' by (by eapply no_collision_sub).
        assert (fits (wref M) (1 + K + keys_of c)) as HK' by (eapply fits_le; [|exact HK]; lia).
        assert (fits (wref M) (W + writes RB H (exec enc dec c) st + 1)) as HW' by (eapply fits_le; [|exact HW]; lia).
        split; [by apply (used_exec M Hn RB H enc dec Hbits st lg K W c)|].
        intros s' Hin. eapply call_small; [exact Hu|exact Hc'| |exact HK'|exact HW'|exact Hin].
        intros x b Hx Hb. eapply Hsh; [by apply Hsub|exact Hb]. }
      destruct o as [c|c i|r|]; cbn [op_step bop_step].
      - destruct (Ha c eq_refl eq_refl Hf) as [H1 H2]. by destruct (alike_bytes _ _ _ H1 H2) as [-> _].
      - destruct (Ha c eq_refl eq_refl Hf) as [H1 H2]. by destruct (alike_bytes _ _ _ H1 H2) as [_ ->].
      - rewrite ser_size. change (remove (3 * size (b_vis RB st) + 2) r) with (remove_prog RB st r).
        destruct (brun_run H (remove_prog RB st r) st) as [-> _]; [|done].
        intros s' Hin. eapply remove_small; [exact Hu| | | | |exact Hin].
        + eapply no_collision_sub; [|exact Hc]. intros x. rewrite !elem_of_app. naive_solver.
        + intros x b Hx Hb. eapply Hsh; [|exact Hb]. apply elem_of_app. by left.
        + eapply fits_le; [|exact HK]. lia.
        + eapply fits_le; [|exact HW]. cbn [op_prog]. lia.
      - done. }
    rewrite fmap_cons, Ho. f_equal. unfold in_bytes at 1. cbn [snd].
    eapply IH; [by apply used_step| | |done| |].
    - by rewrite <- app_assoc.
    - by rewrite <- app_assoc.
    - eapply fits_le; [|exact HK]. lia.
    - eapply fits_le; [|exact HW]. lia.
  Qed.
  Theorem bsession_same os : no_collision H (session_log RB H enc dec (b_init RB) os) →
    short (session_log RB H enc dec (b_init RB) os) → session_fits RB H enc dec M (b_init RB) os →
    fits (wref M) (1 + session_keys os) → fits (wref M) (1 + session_writes RB H enc dec (b_init RB) os) →
    bsession H (m_exec M enc dec) binit os = in_bytes <$> session RB H (exec enc dec) (b_init RB) os.
  Proof.
    intros Hc Hs Hf HK HW. rewrite <- ser_init. apply (bsession_from (b_init RB) [] 0 0); try done; [apply used_init|].
    by rewrite Nat.add_comm.
  Qed.

  (** ** Results *)
  Context (Hcodec : codec_ok enc dec).
  Lemma ready st lg K W : used RB H enc dec st lg K W → no_collision H lg → short lg →
    fits (wref M) (1 + K) → fits (wref M) W → small_st st.
  Proof.
    intros Hu Hc Hsh HK HW.
    exact (used_small Hn H enc dec lg st lg K W Hu Hc (λ x Hx, Hx) Hsh (fits_u64 _ _ Hp64 Hbits) (fits_u64 _ _ Hr64 HK)
      (fits_u64 _ _ Hr64 HW)).
  Qed.
  Lemma read_bytes {A} (p' p : prog n A) st : alike RB H p' p st → readonly p → small_st st →
    brun H p' (ser st) = (out RB H p st, ser st).
  Proof.
    intros Ha Hr Hs. destruct (alike_bytes p' p st Ha) as [-> _].
    - intros s' Hin. by rewrite (readonly_states RB H p st Hr s' Hin).
    - by rewrite readonly_fin.
  Qed.
  Theorem bytes_live st lg K W r Mp D : used RB H enc dec st lg K W → live RB H enc dec st lg r Mp →
    no_collision H lg → short lg → fits (wref M) (1 + K) → fits (wref M) W →
    8 * n + 1 ≤ D → fits (wptr M) (D + 1) →
    (∀ k, brun H (m_get_one M dec D r k) (ser st) = (ROk (Mp !! k), ser st)) ∧
    (∀ ks, mild_get Mp ks → fits (wptr M) (length ks) →
       ∃ lm, brun H (m_get M dec D r ks) (ser st) = (ROk lm, ser st) ∧
         ∀ k, lm !! k = if decide (k ∈ ks) then Some (Mp !! k) else None) ∧
    (∀ k v, fits (wptr M - 1) (deque_cap M D * n) → fits (wptr M - 1) (D * (n + 1)) → Mp !! k = Some v →
       ∃ proof, brun H (m_generate_inclusion_proof M D r k) (ser st) = (ROk proof, ser st) ∧
         ∀ (B' : backend n) (st' : b_st B'), out B' H (verify_inclusion_proof enc r k v proof) st' = ROk tt).
  Proof.
    intros Hu Hl Hc Hsh HK HW HD Hf. pose proof (ready st lg K W Hu Hc Hsh HK HW) as Hs.
    pose proof (live_handle Hn RB H enc dec Hcodec st lg r Mp Hl Hc) as Hh.
    destruct (handle_serves Hn RB H enc dec Hcodec lg st r Mp Hh) as (Hs1 & Hs2 & Hs3 & _). split_and!.
    - intros k. rewrite (read_bytes _ (get_one dec D r k) st); [by rewrite Hs1| |apply readonly_get_one|done].
      exact (get_one_alike M Hn RB H dec Hbits D r k st Hf).
    - intros ks Hm Hk. destruct (Hs2 D ks ltac:(lia) Hm) as (lm & Hout & Hlm). exists lm. split; [|exact Hlm].
      rewrite (read_bytes _ (get dec D r ks) st); [by rewrite Hout| |apply readonly_get|done].
      exact (get_alike M Hn RB H dec Hbits D r ks st Hf Hk).
    - intros k v H1 H2 Hk. destruct (Hs3 D k v HD Hk) as (p & Hout & Hp). exists p. split; [|exact Hp].
      rewrite (read_bytes _ (generate_inclusion_proof D r k) st); [by rewrite Hout| |apply readonly_prove|done].
      exact (prove_alike M Hn RB H Hbits D r k st Hf H1 H2).
  Qed.
  Theorem bytes_insert st lg hs K W r Mp D ks vs : used RB H enc dec st lg K W → hist RB H enc dec st lg hs →
    (r, Mp) ∈ hs → mild Mp ks →
    length ks = length vs → ks ≠ [] → NoDup ks → (∀ v, v ∈ vs → ∃ e, enc v = Ok e) → 8 * n + 1 ≤ D →
    let p := insert enc D (Some r) ks vs in
    no_collision H (lg ++ hlog RB H p st) → short (lg ++ hlog RB H p st) →
    fits (wptr M) (D + 1) → fits (wptr M) (length ks) → fits (wref M) (1 + K + length ks) →
    fits (wref M) (W + writes RB H p st + 1) → fits (wcnt M) (writes RB H p st) → fits (wptr M) (writes RB H p st) →
    ∃ r' z, brun H (m_insert M enc D (Some r) ks vs) (ser st) = (ROk r', z) ∧
      ∀ k, brun H (m_get_one M dec D r' k) z = (ROk ((list_to_map (zip ks vs) ∪ Mp) !! k), z).
  Proof.
    intros Hu Hh Hr Hm Hlen Hne Hnd Henc HD p Hc Hsh Hf Hk HK HW Hw1 Hw2.
    destruct (insert_union Hn RB H enc dec Hcodec st lg hs D r Mp ks vs Hh Hc Hr Hm Hlen Hne Hnd Henc ltac:(lia))
      as (r' & Hout & Hho). fold p in Hout, Hho.
    destruct (drop_result RB H p st) as (E1 & E2 & E3).
    change (p ;; mret tt) with (exec enc dec (CInsert D (Some r) ks vs)) in E1, E2, E3.
    assert (∀ s', s' ∈ states RB H p st → small_st s') as Hs.
    { intros s' Hin. eapply (call_small st lg K W (CInsert D (Some r) ks vs)); [exact Hu| | | | |];
        [by rewrite E3|by rewrite E3|exact HK|by rewrite E2|by rewrite E1]. }
    destruct (alike_bytes (m_insert M enc D (Some r) ks vs) p st) as [Eb _]; [|exact Hs|].
    { exact (used_insert M Hn RB H enc dec Hbits st lg K W D (Some r) ks vs Hu Hc Hf Hk HK HW Hw1 Hw2). }
    exists r', (ser (fin RB H p st)). rewrite Eb, Hout. split; [done|]. intros k.
    rewrite (read_bytes _ (get_one dec D r' k) (fin RB H p st)); [by rewrite Hho| |apply readonly_get_one|].
    - exact (get_one_alike M Hn RB H dec Hbits D r' k _ Hf).
    - apply Hs, run_in_states.
  Qed.
End Stack.
