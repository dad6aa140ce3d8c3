(** * Two backends driven by the same calls hold the same data *)
From Coq Require Import Strings.Byte NArith.
From stdpp Require Import prelude countable gmap sorting strings.
From Verif Require Import Model Bits Spec Util Trie Store Logic Build Evol Route Reads Insert Update Safe Get
  Hist Claims Sim Agree RefCount RcInsert RcRemove Total Live Weak Cost Outcome
  Scenario.

Local Open Scope nat_scope.

(** The same calls on two backends.  What the first backend answers to an
    insertion is recorded; nothing is assumed about the answer of the second.
    Either program may be restarted between two calls. *)
Section Lockstep.
  Context {n : nat} (B1 B2 : backend n) (H : list bytes → arr n).
  Context {V : Type} (enc : V → res bytes) (dec : bytes → res V).
  Inductive lockstep : b_st B1 → b_st B2 → list (list bytes) → list (list bytes) →
      list (arr n * gmap (arr n) V) → Prop :=
  | lockstep_init : lockstep (b_init B1) (b_init B2) [] [] []
  | lockstep_insert st1 st2 lg1 lg2 hs D prev M ks vs r :
      lockstep st1 st2 lg1 lg2 hs → prev_holds hs prev M → benign M ks → fresh_pairs hs ks vs →
      out B1 H (insert enc D prev ks vs) st1 = ROk r →
      lockstep (fin B1 H (insert enc D prev ks vs) st1) (fin B2 H (insert enc D prev ks vs) st2)
           (lg1 ++ hlog B1 H (insert enc D prev ks vs) st1)
           (lg2 ++ hlog B2 H (insert enc D prev ks vs) st2)
           ((r, updated M ks vs) :: hs)
  | lockstep_remove st1 st2 lg1 lg2 hs r M hs' :
      lockstep st1 st2 lg1 lg2 hs → hs ≡ₚ (r, M) :: hs' →
      lockstep (fin B1 H (remove_prog B1 st1 r) st1) (fin B2 H (remove_prog B2 st2 r) st2) lg1 lg2 hs'
  | lockstep_restart1 st1 st2 lg1 lg2 hs :
      lockstep st1 st2 lg1 lg2 hs → lockstep (b_drop B1 st1) st2 lg1 lg2 hs
  | lockstep_restart2 st1 st2 lg1 lg2 hs :
      lockstep st1 st2 lg1 lg2 hs → lockstep st1 (b_drop B2 st2) lg1 lg2 hs.
End Lockstep.

Section Backends.
  Context {n : nat} (Hn : 0 < n) (B1 B2 : backend n) {HB1 : BackendOk B1} {HB2 : BackendOk B2}.
  Context (H : list bytes → arr n).
  Context {V : Type} (enc : V → res bytes) (dec : bytes → res V) (Hcodec : codec_ok enc dec).
  Implicit Types (hs : list (arr n * gmap (arr n) V)).
  Notation Sof L := (λ x, x ∈ L).

  Lemma insert_agree_inv L1 L2 st1 hs1 st2 hs2 D prev M ks vs r :
    no_collision H L1 → no_collision H L2 → hinv B1 H enc L1 st1 hs1 → hinv B2 H enc L2 st2 hs2 →
    (∀ x, x ∈ hlog B1 H (insert enc D prev ks vs) st1 → x ∈ L1) →
    (∀ x, x ∈ hlog B2 H (insert enc D prev ks vs) st2 → x ∈ L2) →
    prev_holds hs1 prev M → prev_holds hs2 prev M → mild M ks →
    out B1 H (insert enc D prev ks vs) st1 = ROk r →
    out B2 H (insert enc D prev ks vs) st2 = ROk r.
  Proof.
    intros Hc1 Hc2 Hi1 Hi2 HL1 HL2 Hp1 Hp2 Hb Hout.
    destruct (prev_old H enc L1 _ hs1 prev M (proj2 Hi1) Hp1) as (old1 & Hpr1 & Hok1 & Hwf1 & He1).
    destruct (prev_old H enc L2 _ hs2 prev M (proj2 Hi2) Hp2) as (old2 & Hpr2 & Hok2 & Hwf2 & He2).
    assert (old1 = old2) as <-.
    { destruct old1 as [t1|], old2 as [t2|]; try by destruct prev.
      f_equal. apply twf_map_inj; [done|done|]. by eapply encs_fun. }
    subst prev.
    destruct (insert_iff Hn B1 H enc dec Hcodec L1 st1 hs1 D old1 M ks vs) as [Ha1 Hn1]; try done.
    destruct (insert_iff Hn B2 H enc dec Hcodec L2 st2 hs2 D old1 M ks vs) as [Ha2 Hn2]; try done.
    assert (accepted enc D old1 ks vs) as Hacc.
    { destruct (accepted_dec enc D old1 ks vs) as [?|Hx]; [done|].
      destruct (Hn1 Hx). congruence. }
    destruct (Ha1 Hacc) as (t1 & Ho1 & Ht1 & Het1). destruct (Ha2 Hacc) as (t2 & Ho2 & Ht2 & Het2).
    rewrite Ho2. rewrite Ho1 in Hout. injection Hout as <-. do 2 f_equal.
    apply twf_map_inj; [done|done|]. by eapply encs_fun.
  Qed.

  Lemma rhist_restart (B : backend n) (st : b_st B) lg hs :
    rhist B H enc dec st lg hs → rhist B H enc dec (b_drop B st) lg hs.
  Proof.
    intros Hh. pose proof (rhist_lost B H enc dec st lg hs (CGet 0 (mkarr n []) []) st Hh) as Hl.
    assert (hlog B H (exec enc dec (CGet 0 (mkarr n []) [])) st = []) as He by done.
    rewrite He, app_nil_r in Hl. apply Hl; [|done]. destruct (exec _ _ _); left.
  Qed.

  Theorem lockstep_rhist st1 st2 lg1 lg2 hs : lockstep B1 B2 H enc st1 st2 lg1 lg2 hs →
    no_collision H lg1 → no_collision H lg2 →
    rhist B1 H enc dec st1 lg1 hs ∧ rhist B2 H enc dec st2 lg2 hs.
  Proof.
    induction 1 as [|st1 st2 lg1 lg2 hs D prev M ks vs r Hbo IH Hp Hb Hf Hout
      |st1 st2 lg1 lg2 hs r M hs' Hbo IH Hp|st1 st2 lg1 lg2 hs Hbo IH|st1 st2 lg1 lg2 hs Hbo IH];
      intros Hc1 Hc2.
    - split; constructor.
    - destruct IH as [Hh1 Hh2]; [by eapply no_collision_app_l|by eapply no_collision_app_l|].
      split; [by eapply rhist_insert|]. eapply rhist_insert; [done|done|done|done|].
      eapply (insert_agree_inv _ _ st1 hs st2 hs D prev M ks vs r Hc1 Hc2); try done; [| | | |by left].
      + eapply (rhist_hinv Hn B1 H enc dec Hcodec); [exact Hh1|done|intros; apply elem_of_app; by left].
      + eapply (rhist_hinv Hn B2 H enc dec Hcodec); [exact Hh2|done|intros; apply elem_of_app; by left].
      + intros; apply elem_of_app; by right.
      + intros; apply elem_of_app; by right.
    - destruct (IH Hc1 Hc2) as [Hh1 Hh2]. split; by eapply rhist_remove.
    - destruct (IH Hc1 Hc2) as [Hh1 Hh2]. split; [by apply rhist_restart|done].
    - destruct (IH Hc1 Hc2) as [Hh1 Hh2]. split; [done|by apply rhist_restart].
  Qed.

  (** Two databases whose counts are exact for the same trees are equal, even
      if the hash is collision free on two different sets of inputs. *)
  Lemma RC_det2 (S S' : list bytes → Prop) m m' (hts : list (trie n)) : inj_on H S → inj_on H S' →
    proper H S m → proper H S' m' →
    Forall (λ t, Forall S (tpre H t)) hts → Forall (λ t, Forall S' (tpre H t)) hts →
    RC True m (troot H <$> hts) → RC True m' (troot H <$> hts) → m = m'.
  Proof using.
    clear. intros Hinj Hinj' Hp Hp' Hpre Hpre' HR HR'.
    assert (∀ (S S' : list bytes → Prop) m m', inj_on H S → inj_on H S' → proper H S m → proper H S' m' →
      Forall (λ t, Forall S (tpre H t)) hts → Forall (λ t, Forall S' (tpre H t)) hts →
      RC True m (troot H <$> hts) → RC True m' (troot H <$> hts) →
      ∀ l nd, m !! l = Some nd → ∃ nd', m' !! l = Some nd' ∧ var nd = var nd') as Hdir.
    { clear. intros S S' m m' Hinj Hinj' Hp Hp' Hpre Hpre' HR HR' l nd Hl.
      destruct (Hp _ _ Hl) as (o & Ho & _ & Hloc & Hvar).
      destruct (alive H S Hinj True m hts I Hp HR Hpre o Ho) as (t & Ht & Hsub); [rewrite Hloc; eauto|].
      destruct HR' as (_ & HX & _).
      destruct (HX (troot H t)) as [ndt Hndt]; [by apply elem_of_list_fmap_1|].
      rewrite Forall_forall in Hpre'.
      destruct (proper_stored H S' Hinj' m' t ndt Hp' (Hpre' t Ht) Hndt) as (_ & Hst & _).
      destruct (osub_stored H m' o t Hsub Hst) as [nd' Hnd'].
      destruct (proper_lookup H S' Hinj' m' o nd' Hp' (osub_pre H S' o t Hsub (Hpre' t Ht)) Hnd') as (Hv' & _).
      exists nd'. split; [congruence|]. destruct Hvar as [Hvar _]. congruence. }
    assert (ceq m m') as Hceq.
    { intros l. destruct (m !! l) as [nd|] eqn:Hl.
      - destruct (Hdir S S' m m' Hinj Hinj' Hp Hp' Hpre Hpre' HR HR' l nd Hl) as (nd' & -> & Hv). simpl. by rewrite Hv.
      - destruct (m' !! l) as [nd'|] eqn:Hl'; [|done].
        destruct (Hdir S' S m' m Hinj' Hinj Hp' Hp Hpre' Hpre HR' HR l nd' Hl') as (nd & Hc & _). congruence. }
    apply map_eq. intros l. pose proof (Hceq l) as Hl.
    destruct (m !! l) as [[rf v]|] eqn:H1; destruct (m' !! l) as [[rf' v']|] eqn:H2; try done. simpl in Hl.
    destruct HR as (_ & _ & HR). destruct HR' as (_ & _ & HR').
    destruct (HR _ _ H1) as [Ha1 Hb1]. destruct (HR' _ _ H2) as [Ha2 Hb2].
    destruct (Hb1 I), (Hb2 I). rewrite (pointers_ext m m' l Hceq) in *. simpl in *.
    do 2 f_equal; [lia|congruence].
  Qed.

  Lemma linv_det2 L1 L2 st1 st2 hs hts1 hts2 : inj_on H (Sof L1) → inj_on H (Sof L2) →
    linv B1 H enc True L1 st1 hs hts1 → linv B2 H enc True L2 st2 hs hts2 → b_vis B1 st1 = b_vis B2 st2.
  Proof.
    intros Hinj1 Hinj2 Hi1 Hi2.
    assert (hts1 = hts2) as <-.
    { pose proof (linv_trees _ _ _ _ _ _ _ _ Hi1) as H1. pose proof (linv_trees _ _ _ _ _ _ _ _ Hi2) as H2.
      clear -H1 H2. revert hts2 H2. induction H1 as [|h t hs hts (_ & Hw & _ & He) _ IH]; intros hts2 H2.
      - by inversion H2.
      - inversion H2 as [|? t' ? hts0 (_ & Hw' & _ & He') Hf0]; subst. f_equal; [|by apply IH].
        apply twf_map_inj; [done|done|]. by eapply encs_fun. }
    eapply (RC_det2 (Sof L1) (Sof L2)); [exact Hinj1|exact Hinj2|apply Hi1|apply Hi2| | |apply Hi1|apply Hi2].
    - by eapply (linv_pre B1).
    - by eapply (linv_pre B2).
  Qed.

  (** Readers see the visible part of the database only. *)
  Lemma readonly_same {A} (p : prog n A) st1 st2 : readonly p → b_vis B1 st1 = b_vis B2 st2 →
    out B1 H p st1 = out B2 H p st2.
  Proof using.
    intros Hr Hv. unfold out. induction p as [a|e| | |cs k IH|l k IH|l nd k IH|l k IH|k IH]; cbn in *; try done.
    - specialize (IH (H cs) (Hr _)). by destruct (run B1 H (k (H cs)) st1) as [[??]?], (run B2 H (k (H cs)) st2) as [[??]?].
    - rewrite Hv. apply IH, Hr.
  Qed.

  (** C73 *)
  Theorem same_store st1 st2 lg1 lg2 hs : lockstep B1 B2 H enc st1 st2 lg1 lg2 hs →
    no_collision H lg1 → no_collision H lg2 → b_vis B1 st1 = b_vis B2 st2.
  Proof.
    intros Hl Hc1 Hc2. destruct (lockstep_rhist _ _ _ _ _ Hl Hc1 Hc2) as [Hh1 Hh2].
    destruct (rhist_inv Hn B1 H enc dec Hcodec lg1 st1 lg1 hs Hc1 Hh1) as [hts1 Hi1]; [done|].
    destruct (rhist_inv Hn B2 H enc dec Hcodec lg2 st2 lg2 hs Hc2 Hh2) as [hts2 Hi2]; [done|].
    exact (linv_det2 lg1 lg2 st1 st2 hs hts1 hts2 Hc1 Hc2 Hi1 Hi2).
  Qed.
  Theorem same_removals st1 st2 lg1 lg2 hs r M hs' : lockstep B1 B2 H enc st1 st2 lg1 lg2 hs →
    no_collision H lg1 → no_collision H lg2 → hs ≡ₚ (r, M) :: hs' →
    out B1 H (remove_prog B1 st1 r) st1 = ROk tt ∧ out B2 H (remove_prog B2 st2 r) st2 = ROk tt ∧
    b_vis B1 (fin B1 H (remove_prog B1 st1 r) st1) = b_vis B2 (fin B2 H (remove_prog B2 st2 r) st2).
  Proof.
    intros Hl Hc1 Hc2 Hp. destruct (lockstep_rhist _ _ _ _ _ Hl Hc1 Hc2) as [Hh1 Hh2]. split_and!.
    - apply (remove_total B1 H st1 r).
    - apply (remove_total B2 H st2 r).
    - eapply same_store; [|exact Hc1|exact Hc2]. by eapply lockstep_remove.
  Qed.
  Theorem same_store_removals st1 st2 lg1 lg2 hs : lockstep B1 B2 H enc st1 st2 lg1 lg2 hs →
    no_collision H lg1 → no_collision H lg2 →
    b_vis B1 st1 = b_vis B2 st2 ∧
    ∀ r M hs', hs ≡ₚ (r, M) :: hs' →
      out B1 H (remove_prog B1 st1 r) st1 = ROk tt ∧ out B2 H (remove_prog B2 st2 r) st2 = ROk tt ∧
      b_vis B1 (fin B1 H (remove_prog B1 st1 r) st1) = b_vis B2 (fin B2 H (remove_prog B2 st2 r) st2).
  Proof.
    intros Hl Hc1 Hc2. split; [exact (same_store st1 st2 lg1 lg2 hs Hl Hc1 Hc2)|]. intros r M hs' Hp.
    exact (same_removals st1 st2 lg1 lg2 hs r M hs' Hl Hc1 Hc2 Hp).
  Qed.
  Theorem same_reads st1 st2 lg1 lg2 hs : lockstep B1 B2 H enc st1 st2 lg1 lg2 hs →
    no_collision H lg1 → no_collision H lg2 → ∀ D r,
    (∀ ks, out B1 H (get dec D r ks) st1 = out B2 H (get dec D r ks) st2) ∧
    (∀ k, out B1 H (get_one dec D r k) st1 = out B2 H (get_one dec D r k) st2) ∧
    (∀ k, out B1 H (generate_inclusion_proof D r k) st1 = out B2 H (generate_inclusion_proof D r k) st2).
  Proof.
    intros Hl Hc1 Hc2 D r. pose proof (same_store _ _ _ _ _ Hl Hc1 Hc2) as Hv.
    split_and!; intros; apply readonly_same; auto using readonly_get, readonly_get_one, readonly_prove.
  Qed.
  Theorem same_writes st1 st2 lg1 lg2 hs D prev M ks vs : lockstep B1 B2 H enc st1 st2 lg1 lg2 hs →
    prev_holds hs prev M → mild M ks → (∀ v, v ∈ vs → ∃ e, enc v = Ok e) →
    no_collision H (lg1 ++ hlog B1 H (insert enc D prev ks vs) st1) →
    no_collision H (lg2 ++ hlog B2 H (insert enc D prev ks vs) st2) →
    out B1 H (insert enc D prev ks vs) st1 = out B2 H (insert enc D prev ks vs) st2.
  Proof.
    intros Hl Hp Hb Hen Hc1 Hc2.
    assert (no_collision H lg1) as Hd1 by (by eapply no_collision_app_l).
    assert (no_collision H lg2) as Hd2 by (by eapply no_collision_app_l).
    pose proof (same_reads _ _ _ _ _ Hl Hd1 Hd2) as Hrd.
    destruct (lockstep_rhist _ _ _ _ _ Hl Hd1 Hd2) as [Hh1 Hh2].
    destruct (decide (length ks = length vs)) as [Hlen|Hlen].
    2:{ unfold insert. apply Nat.eqb_neq in Hlen as ->. done. }
    destruct (decide (ks = [])) as [->|Hne].
    { destruct vs; [done|discriminate]. }
    destruct (insert_outcome Hn B1 H enc dec Hcodec st1 lg1 hs D prev M ks vs) as [_ Ho1]; try done.
    { right. by apply rhist_whist. }
    destruct (insert_outcome Hn B2 H enc dec Hcodec st2 lg2 hs D prev M ks vs) as [_ Ho2]; try done.
    { right. by apply rhist_whist. }
    destruct (Ho1 Hen) as (Hdeep1 & Hdup1 & Hok1). destruct (Ho2 Hen) as (Hdeep2 & Hdup2 & Hok2).
    assert ((∃ r, prev = Some r ∧ out B1 H (get dec D r ks) st1 = RErr "Depth of merkle tree exceeded"%string) ↔
            (∃ r, prev = Some r ∧ out B2 H (get dec D r ks) st2 = RErr "Depth of merkle tree exceeded"%string)) as Hdd.
    { split; intros (r & -> & Hr); exists r; (split; [done|]).
      - by rewrite <- (proj1 (Hrd D r) ks).
      - by rewrite (proj1 (Hrd D r) ks). }
    assert ((∃ r, prev = Some r ∧ out B1 H (get dec D r ks) st1 = RErr "Depth of merkle tree exceeded"%string) ∨
           ¬ (∃ r, prev = Some r ∧ out B1 H (get dec D r ks) st1 = RErr "Depth of merkle tree exceeded"%string)) as [Hx|Hx].
    { destruct prev as [r|]; [|right; by intros (? & ? & _)].
      destruct (out B1 H (get dec D r ks) st1) as [lm|er| |] eqn:Hg; try (right; intros (? & [= <-] & ?); congruence).
      destruct (decide (er = "Depth of merkle tree exceeded"%string)) as [->|]; [left; eauto|right; intros (? & [= <-] & ?); congruence]. }
    - rewrite (Hdeep1 Hx), (Hdeep2 (proj1 Hdd Hx)). done.
    - assert (¬ (∃ r, prev = Some r ∧ out B2 H (get dec D r ks) st2 = RErr "Depth of merkle tree exceeded"%string)) as Hy by (by rewrite <- Hdd).
      destruct (decide (NoDup ks)) as [Hnd|Hnd].
      + destruct (Hok1 Hx Hnd) as [[r1 Hr1]|[? _]]; [|done]. rewrite Hr1. symmetry.
        eapply (insert_agree_inv _ _ st1 hs st2 hs D prev M ks vs r1 Hc1 Hc2); try done.
        * eapply (rhist_hinv Hn B1 H enc dec Hcodec); [exact Hh1|done|intros; apply elem_of_app; by left].
        * eapply (rhist_hinv Hn B2 H enc dec Hcodec); [exact Hh2|done|intros; apply elem_of_app; by left].
        * intros; apply elem_of_app; by right.
        * intros; apply elem_of_app; by right.
      + by rewrite (Hdup1 Hx Hnd), (Hdup2 Hy Hnd).
  Qed.
  (** Roots in use, whatever else the two databases hold. *)
  Theorem live_reads_agree st1 st2 lg1 lg2 r M : live B1 H enc dec st1 lg1 r M → live B2 H enc dec st2 lg2 r M →
    no_collision H lg1 → no_collision H lg2 → ∀ D,
    (∀ ks, out B1 H (get dec D r ks) st1 = out B2 H (get dec D r ks) st2) ∧
    (∀ k, out B1 H (get_one dec D r k) st1 = out B2 H (get_one dec D r k) st2) ∧
    (∀ k, out B1 H (generate_inclusion_proof D r k) st1 = out B2 H (generate_inclusion_proof D r k) st2).
  Proof.
    intros (hs1 & Hh1 & Hr1) (hs2 & Hh2 & Hr2) Hc1 Hc2 D.
    destruct (known_J Hn B1 H enc dec Hcodec lg1 st1 lg1 hs1 Hh1 Hc1 ltac:(done)) as [Hf1 _].
    destruct (known_J Hn B2 H enc dec Hcodec lg2 st2 lg2 hs2 Hh2 Hc2 ltac:(done)) as [Hf2 _].
    rewrite Forall_forall in Hf1, Hf2.
    destruct (Hf1 _ Hr1) as (t1 & Ht1 & Hw1 & Hs1 & _ & He1).
    destruct (Hf2 _ Hr2) as (t2 & Ht2 & Hw2 & Hs2 & _ & He2).
    simpl in *. assert (t1 = t2) as <- by (apply twf_map_inj; [done|done|by eapply encs_fun]).
    subst r. pose proof (twf_tpwf t1 Hw1).
    split_and!; intros; [by apply get_same|by apply get_one_same|by apply prove_same].
  Qed.
End Backends.

(** The calls of [Scenario], on both backends; at the end the second one is restarted. *)
Definition x1 : b_st (rocks_db 2) := fin (rocks_db 2) toy i1 (b_init _).
Definition x2 : b_st (rocks_db 2) := fin (rocks_db 2) toy (i2 (hash_db 2)) x1.
Definition y2 : b_st (rocks_db 2) := fin (rocks_db 2) toy (remove_prog _ x2 (r1 (hash_db 2))) x2.
Definition y4 : b_st (rocks_db 2) := fin (rocks_db 2) toy (i4 (hash_db 2)) y2.
Definition xlg : list (list bytes) :=
  (([] ++ hlog (rocks_db 2) toy i1 (b_init _)) ++ hlog (rocks_db 2) toy (i2 (hash_db 2)) x1) ++
  hlog (rocks_db 2) toy (i4 (hash_db 2)) y2.
Lemma lockstep_case : lockstep (hash_db 2) (rocks_db 2) toy idc (q4 (hash_db 2)) (b_drop (rocks_db 2) y4)
  (lg4 (hash_db 2)) xlg (hs4 (hash_db 2)).
Proof.
  apply lockstep_restart2. unfold q4, y4, lg4, xlg, hs4, M4. eapply lockstep_insert with (prev := Some (r2 (hash_db 2))).
  - unfold q2, y2. eapply lockstep_remove with (M := M1) (hs := hs2 (hash_db 2)); [|by apply Permutation_swap].
    unfold s2, x2, lg2, hs2, M2. eapply lockstep_insert with (prev := Some (r1 (hash_db 2))).
    + unfold s1, x1, lg1, hs1, M1. eapply lockstep_insert with (prev := None);
        [apply lockstep_init|done|apply benign_empty|by intros r M k v ?%elem_of_nil|].
      vm_compute. reflexivity.
    + left.
    + apply hazard_b_sound. vm_compute. reflexivity.
    + intros r M k v Hin. apply elem_of_list_singleton in Hin as [= -> ->].
      apply (fresh_b_sound [(K1, M1)] [K3; K4] [v3; v4]) with (r := K1); [vm_compute; reflexivity|left].
    + vm_compute. reflexivity.
  - left.
  - apply hazard_b_sound. vm_compute. reflexivity.
  - apply scenario2_fresh.
  - vm_compute. reflexivity.
Qed.
Lemma lockstep_nc : no_collision toy (lg4 (hash_db 2)) ∧ no_collision toy xlg.
Proof. split; apply no_collision_b_sound; vm_compute; reflexivity. Qed.

(** ** Where the backends differ
    A pair inserted again onto the tree that has it: the leaf is counted twice
    by a database that shows its writes at once, and once by one that queues
    them (insert_leaves and insert_leaf both add one to what they read).  Each
    of the two roots returned is then removed. *)
Section Differ.
  Context (B : backend 2) (k : arr 2) (v : bytes) (r : arr 2).
  Definition again1 : b_st B := fin B toy (insert idc 17 None [k] [v]) (b_init B).
  Definition again2 : b_st B := fin B toy (insert idc 17 (Some r) [k] [v]) again1.
  Definition again3 : b_st B := fin B toy (remove_prog B again2 r) again2.
  Definition again4 : b_st B := fin B toy (remove_prog B again3 r) again3.
End Differ.
Lemma backends_differ : ∃ (k : arr 2) (v : bytes) (r : arr 2),
  (∀ B : backend 2, B = hash_db 2 ∨ B = rocks_db 2 →
     let first := insert idc 17 None [k] [v] in let again := insert idc 17 (Some r) [k] [v] in
     out B toy first (b_init B) = ROk r ∧ out B toy again (again1 B k v) = ROk r ∧
     no_collision toy (hlog B toy first (b_init B) ++ hlog B toy again (again1 B k v))) ∧
  out (hash_db 2) toy (get_one idc 17 r k) (again4 (hash_db 2) k v r) = ROk (Some v) ∧
  out (rocks_db 2) toy (get_one idc 17 r k) (again4 (rocks_db 2) k v r) = ROk None.
Proof.
  exists K1, v1, (toy (leaf_in K1 (toy (data_in K1 v1)))). split; [|vm_compute; split; reflexivity].
  intros B [-> | ->]; (split; [vm_compute; reflexivity|split; [vm_compute; reflexivity|]]);
    apply no_collision_b_sound; vm_compute; reflexivity.
Qed.
