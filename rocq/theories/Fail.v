(** * What a failing insertion leaves behind *)
From Coq Require Import Strings.Byte NArith.
From stdpp Require Import prelude countable gmap sorting strings.
From Verif Require Import Model Bits Spec Util Trie Store Logic Evol Safe Hist Claims Live.

Local Open Scope nat_scope.

Section Fail.
  Context {n : nat} (Hn : 0 < n).
  Context (B : backend n) {HB : BackendOk B} (H : list bytes → arr n).
  Context {V : Type} (enc : V → res bytes) (dec : bytes → res V) (Hcodec : codec_ok enc dec).

  Lemma fail_hinv L st hs D prev ks vs er : no_collision H L → hinv B H enc L st hs →
    (∀ x, x ∈ hlog B H (insert enc D prev ks vs) st → x ∈ L) →
    out B H (insert enc D prev ks vs) st = RErr er → queued B st (fin B H (insert enc D prev ks vs) st).
  Proof using Hn HB Hcodec.
    intros Hc [HJ _] Hl Hout.
    pose proof (insert_safe Hn H _ Hc B enc (enc_no_panic _ _ Hcodec) D _ prev ks vs st HJ) as Hw.
    apply wp_run in Hw; [|done]. rewrite Hout in Hw. apply Hw.
  Qed.
  (** A failing insertion only queues writes: nothing is deleted or committed. *)
  Theorem failing_insert_queued st lg hs D prev ks vs er : rhist B H enc dec st lg hs ∨ hist B H enc dec st lg hs →
    no_collision H (lg ++ hlog B H (insert enc D prev ks vs) st) →
    out B H (insert enc D prev ks vs) st = RErr er → queued B st (fin B H (insert enc D prev ks vs) st).
  Proof using Hn HB Hcodec.
    intros Hh Hc. apply (fail_hinv (lg ++ hlog B H (insert enc D prev ks vs) st) st hs); [done| |].
    - destruct Hh as [Hh|Hh].
      + eapply rhist_hinv; eauto. intros; apply elem_of_app; by left.
      + eapply hist_hinv; eauto. intros; apply elem_of_app; by left.
    - intros; apply elem_of_app; by right.
  Qed.
  (** Rejected arguments: nothing happens at all. *)
  Theorem rejected_insert st D prev ks (vs : list V) : length ks ≠ length vs ∨ ks = [] →
    fin B H (insert enc D prev ks vs) st = st ∧ ∃ er, out B H (insert enc D prev ks vs) st = RErr er.
  Proof using.
    intros Hx. unfold insert. destruct (Nat.eqb_spec (length ks) (length vs)) as [He|He]; cbn [negb].
    - destruct Hx as [Hx| ->]; [done|]. cbn. eauto.
    - cbn. eauto.
  Qed.
End Fail.

Lemma rocks_queued n (s s' : rocks_st n) : queued (rocks_db n) s s' → committed s' = committed s.
Proof.
  intros [q ->]. revert s. induction q as [|[l nd] q IH]; intros s; [done|]. cbn [foldl fst snd].
  by rewrite IH.
Qed.
(** On RocksDB the queue is lost when the process restarts: as if the call had
    never been made. *)
Theorem rocks_failing_insert {n} (Hn : 0 < n) (H : list bytes → arr n)
    {V : Type} (enc : V → res bytes) (dec : bytes → res V) (Hcodec : codec_ok enc dec) st lg hs D prev ks vs er :
  rhist (rocks_db n) H enc dec st lg hs ∨ hist (rocks_db n) H enc dec st lg hs →
  no_collision H (lg ++ hlog (rocks_db n) H (insert enc D prev ks vs) st) →
  out (rocks_db n) H (insert enc D prev ks vs) st = RErr er →
  b_vis (rocks_db n) (fin (rocks_db n) H (insert enc D prev ks vs) st) = b_vis (rocks_db n) st ∧
  b_drop (rocks_db n) (fin (rocks_db n) H (insert enc D prev ks vs) st) = b_drop (rocks_db n) st.
Proof.
  intros Hh Hc Ho.
  pose proof (failing_insert_queued Hn (rocks_db n) H enc dec Hcodec st lg hs D prev ks vs er Hh Hc Ho) as Hq.
  apply rocks_queued in Hq. cbn. by rewrite Hq.
Qed.
