(** * Databases about which little or nothing is known
    Statements only; see PropsHist.v for the conventions.  [serves] and [live] are defined in Spec.v,
    [kept], [all_kept], [away] and [lazy_or_eager] in Moved.v, the databases of the examples in Scenario12.v. *)
From Coq Require Import Strings.Byte NArith.
From stdpp Require Import prelude countable gmap sorting strings.
From Verif Require Import Model Bits Spec Logic Safe Claims Live AnyReads Scratch Moved Scenario Refuted Scenario8 Scenario12.

Local Open Scope nat_scope.

Notation HB := (hash_db 2). Notation RB := (rocks_db 2).
Ltac nc := apply no_collision_b_sound; vm_compute; reflexivity.

(** C17, in any database whatever: what an accepted batch is like. *)
Theorem C17_any_database :
  ∀ (n : nat) (B : backend n) (H : list bytes → arr n) (V : Type) (enc : V → res bytes), 0 < n →
  ∀ D prev (ks : list (arr n)) vs st r, out B H (insert enc D prev ks vs) st = ROk r →
  length ks = length vs ∧ ks ≠ [] ∧ NoDup ks ∧ ∀ v, v ∈ vs → ∃ e, enc v = Ok e.
Proof. intros n B H V enc Hn. exact (any_accepted Hn B H enc). Qed.
Print Assumptions C17_any_database.
Example C17_any_case : ∀ D prev r, out RB toy (insert idc D prev [K5; K1; K5] [v1; v2; v3]) (junk RB) ≠ ROk r.
Proof.
  intros D prev r Ho. destruct (C17_any_database 2 RB toy _ idc (Nat.lt_0_succ 1) _ _ _ _ _ _ Ho) as (_ & _ & Hnd & _).
  apply NoDup_cons in Hnd as [Hnd _]. apply Hnd. right. left.
Qed.
Example C17_any_hyps : ∃ r, out RB toy (insert idc 17 (Some (wr2 RB)) [K4; K5] [v1; v2]) (forged RB) = ROk r.
Proof. apply is_ok_true. vm_compute. reflexivity. Qed.

(** C87: a value [get_one] returns is the one [get] returns. *)
Theorem C87_get :
  ∀ (n : nat) (B : backend n) (H : list bytes → arr n) (V : Type) (dec : bytes → res V),
  ∀ D r (k : arr n) v st, out B H (get_one dec D r k) st = ROk (Some v) → out B H (get dec D r [k]) st = ROk {[k := Some v]}.
Proof. exact @any_get_one_get. Qed.
Print Assumptions C87_get.
Example C87_get_case : out RB toy (get idc 17 (wr2 RB) [K1]) (forged RB) = ROk {[K1 := Some v2]}.
Proof. apply C87_get. vm_compute. reflexivity. Qed.

(** C87: what [get] returns for one key, [get_one] returns with a limit greater by one. *)
Theorem C87_get_one :
  ∀ (n : nat) (B : backend n) (H : list bytes → arr n) (V : Type) (dec : bytes → res V),
  ∀ D r (k : arr n) lm st, out B H (get dec D r [k]) st = ROk lm →
  ∃ o, lm = {[k := o]} ∧ out B H (get_one dec (D + 1) r k) st = ROk o.
Proof. exact @any_get_get_one. Qed.
Print Assumptions C87_get_one.
Example C87_get_one_case : ∃ lm o, out RB toy (get idc 17 (wr2 RB) [KX]) (junk RB) = ROk lm ∧ lm = {[KX := o]} ∧
  out RB toy (get_one idc 18 (wr2 RB) KX) (junk RB) = ROk o.
Proof.
  destruct (is_ok_true (out RB toy (get idc 17 (wr2 RB) [KX]) (junk RB))) as [lm Ho]; [vm_compute; reflexivity|].
  destruct (C87_get_one 2 RB toy _ idc _ _ _ _ _ Ho) as (o & Hlm & Hg). exists lm, o. exact (conj Ho (conj Hlm Hg)).
Qed.

(** C87: what [get_one] does determines what proof generation does, up to the decoding of the value. *)
Theorem C87_prove :
  ∀ (n : nat) (B : backend n) (H : list bytes → arr n) (V : Type) (dec : bytes → res V),
  ∀ D r (k : arr n) st, (∀ e, dec e ≠ Pan) →
    match out B H (get_one dec D r k) st with
    | ROk (Some v) => ∃ p, out B H (generate_inclusion_proof D r k) st = ROk p
    | ROk None => out B H (generate_inclusion_proof D r k) st = RErr "Key not found in tree" ∨
                  out B H (generate_inclusion_proof D r k) st = RErr "Failed to find node"
    | RErr er => out B H (generate_inclusion_proof D r k) st = RErr er ∨
                 ∃ p e, out B H (generate_inclusion_proof D r k) st = ROk p ∧ dec e = Err er
    | o => out B H (generate_inclusion_proof D r k) st = match o with RPanic => RPanic | _ => RFuel end
    end.
Proof. exact @any_get_one_prove. Qed.
Print Assumptions C87_prove.
Example C87_prove_case : ∃ p, out RB toy (generate_inclusion_proof 17 (wr2 RB) K1) (forged RB) = ROk p.
Proof.
  pose proof (C87_prove 2 RB toy _ idc 17 (wr2 RB) K1 (forged RB) ltac:(done)) as Hp.
  assert (out RB toy (get_one idc 17 (wr2 RB) K1) (forged RB) = ROk (Some v2)) as Ho by (vm_compute; reflexivity).
  rewrite Ho in Hp. exact Hp.
Qed.

(** C88: outcome and hashes of a call without previous root are the same on all databases. *)
Theorem C88_same :
  ∀ (n : nat) (B B' : backend n) (HB : BackendOk B) (HB' : BackendOk B') (H : list bytes → arr n) (V : Type) (enc : V → res bytes),
  ∀ D D' (ks : list (arr n)) vs st st',
  out B H (insert enc D None ks vs) st = out B' H (insert enc D' None ks vs) st' ∧
  hlog B H (insert enc D None ks vs) st = hlog B' H (insert enc D' None ks vs) st'.
Proof. intros n B B' HB HB' H V enc. exact (scratch_same B H enc B'). Qed.
Print Assumptions C88_same.
Example C88_same_case : out RB toy i1 (junk RB) = ROk (r1 HB).
Proof.
  transitivity (out HB toy i1 (b_init HB)); [|vm_compute; reflexivity].
  exact (proj1 (C88_same 2 RB HB _ _ toy _ idc 17 17 [K2; K1] [v2; v1] (junk RB) (b_init HB))).
Qed.

(** C88: such a call succeeds in any state of the database, and its root stands for the batch. *)
Theorem C88_serves :
  ∀ (n : nat) (B : backend n) (HB : BackendOk B) (H : list bytes → arr n)
    (V : Type) (enc : V → res bytes) (dec : bytes → res V), 0 < n → codec_ok enc dec →
  ∀ D (ks : list (arr n)) vs st, no_collision H (hlog B H (insert enc D None ks vs) st) →
  length ks = length vs → ks ≠ [] → NoDup ks → (∀ v, v ∈ vs → ∃ e, enc v = Ok e) →
  ∃ r, out B H (insert enc D None ks vs) st = ROk r ∧
    serves B H enc dec (fin B H (insert enc D None ks vs) st) r (list_to_map (zip ks vs)).
Proof. intros n B HB H V enc dec Hn Hc. exact (scratch_total Hn B H enc dec Hc). Qed.
Print Assumptions C88_serves.
(** Before the call the data node of [K1] is a branch; afterwards the tree is read. *)
Example C88_serves_case : ∃ r, out RB toy i1 (junk RB) = ROk r ∧ serves RB toy idc idc (fin RB toy i1 (junk RB)) r (list_to_map (zip [K2; K1] [v2; v1])).
Proof.
  apply (C88_serves 2 RB _ toy _ idc idc (Nat.lt_0_succ 1) idc_ok); [nc|done|done| |by eexists].
  apply (bool_decide_unpack _). vm_compute. exact I.
Qed.

(** C89: copied trees, and trees grown from them, are read as at home. *)
Theorem C89_serves :
  ∀ (n : nat) (B1 B : backend n) (HB1 : BackendOk B1) (HB : BackendOk B) (H : list bytes → arr n)
    (V : Type) (enc : V → res bytes) (dec : bytes → res V), 0 < n → codec_ok enc dec → lazy_or_eager B →
  ∀ st lg hs r M, away B1 B H enc dec st lg hs → no_collision H lg → (r, M) ∈ hs → serves B H enc dec st r M.
Proof. intros n B1 B HB1 HB H V enc dec Hn Hc Hl. exact (away_serves Hn B1 B H enc dec Hc Hl). Qed.
Print Assumptions C89_serves.
Example C89_backends : lazy_or_eager HB ∧ lazy_or_eager RB := conj (hash_eager 2) (rocks_lazy 2).
Example C89_host : away HB RB toy idc idc host ([] ++ dlg HB) [(wr2 HB, W2)].
Proof. apply host_away; vm_compute; reflexivity. Qed.
Example C89_serves_case : serves RB toy idc idc host (wr2 HB) W2.
Proof.
  apply (C89_serves 2 HB RB _ _ toy _ idc idc (Nat.lt_0_succ 1) idc_ok (rocks_lazy 2) _ _ _ _ _ C89_host); [nc|left].
Qed.

(** C89: insertions on them. *)
Theorem C89_insert :
  ∀ (n : nat) (B1 B : backend n) (HB1 : BackendOk B1) (HB : BackendOk B) (H : list bytes → arr n)
    (V : Type) (enc : V → res bytes) (dec : bytes → res V), 0 < n → codec_ok enc dec → lazy_or_eager B →
  ∀ st lg hs D prev M ks vs, away B1 B H enc dec st lg hs →
  no_collision H (lg ++ hlog B H (insert enc D prev ks vs) st) → prev_holds hs prev M → mild M ks →
  length ks = length vs → ks ≠ [] → NoDup ks → (∀ v, v ∈ vs → ∃ e, enc v = Ok e) → (prev = None ∨ 8 * n ≤ D) →
  ∃ r, out B H (insert enc D prev ks vs) st = ROk r ∧
    serves B H enc dec (fin B H (insert enc D prev ks vs) st) r (updated M ks vs) ∧
    ∀ r0 M0, (r0, M0) ∈ hs → serves B H enc dec (fin B H (insert enc D prev ks vs) st) r0 M0.
Proof. intros n B1 B HB1 HB H V enc dec Hn Hc Hl. exact (away_total Hn B1 B H enc dec Hc Hl). Qed.
Print Assumptions C89_insert.
Example C89_insert_case : ∃ r, out RB toy (insert idc 17 (Some (wr2 HB)) [K4] [v4]) host = ROk r ∧
  serves RB toy idc idc (fin RB toy (insert idc 17 (Some (wr2 HB)) [K4] [v4]) host) r (updated W2 [K4] [v4]) ∧
  ∀ r0 M0, (r0, M0) ∈ [(wr2 HB, W2)] → serves RB toy idc idc (fin RB toy (insert idc 17 (Some (wr2 HB)) [K4] [v4]) host) r0 M0.
Proof.
  apply (C89_insert 2 HB RB _ _ toy _ idc idc (Nat.lt_0_succ 1) idc_ok (rocks_lazy 2) _ _ _ _ _ _ _ _ C89_host);
    [nc|left|left; apply benign_single|done|done|apply NoDup_singleton|by eexists|right; lia].
Qed.

(** C89: the roots are those of the home database. *)
Theorem C89_same_root :
  ∀ (n : nat) (B1 B : backend n) (HB1 : BackendOk B1) (HB : BackendOk B) (H : list bytes → arr n)
    (V : Type) (enc : V → res bytes) (dec : bytes → res V), 0 < n → codec_ok enc dec → lazy_or_eager B →
  ∀ st lg hs (st0 : b_st B1) lg0 r0 r M, away B1 B H enc dec st lg hs → live B1 H enc dec st0 lg0 r0 M →
  (r, M) ∈ hs → no_collision H (lg ++ lg0) → r = r0.
Proof. intros n B1 B HB1 HB H V enc dec Hn Hc Hl. exact (away_same Hn B1 B H enc dec Hc Hl). Qed.
Print Assumptions C89_same_root.
Example C89_same_root_case : ∀ st0 lg0 r0, live HB toy idc idc st0 lg0 r0 W2 → no_collision toy (([] ++ dlg HB) ++ lg0) → wr2 HB = r0.
Proof.
  intros st0 lg0 r0 Hl Hc.
  exact (C89_same_root 2 HB RB _ _ toy _ idc idc (Nat.lt_0_succ 1) idc_ok (rocks_lazy 2) _ _ _ _ _ _ _ _ C89_host Hl ltac:(left) Hc).
Qed.
