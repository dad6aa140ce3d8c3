(** * Insertions into every live root
    [hist] (Spec.v) has no removals.  With [live] a root may come from any history, with removals, failures and
    restarts, and the batch may create branches of other trees again. *)
From Coq Require Import Strings.Byte NArith.
From stdpp Require Import prelude countable gmap sorting strings.
From Verif Require Import Model Bits Spec Util Trie Store Logic Build Evol Reads Insert Update Safe Get Hist Claims RefCount Route Live RcInsert Growth Weak Cost Exact Struct Need Usage Shape Paths Depth Outcome Moved Codec CodecProofs Bytes Machine Counts MachineProofs Deploy.
From Verif Require Release AnyReads.

Local Open Scope nat_scope.

Section Every.
  Context {n : nat} (Hn : 0 < n) (B : backend n) {HB : BackendOk B} (H : list bytes → arr n).
  Context {V : Type} (enc : V → res bytes) (dec : bytes → res V) (Hcodec : codec_ok enc dec).
  Context (Hle : lazy_or_eager B).
  Implicit Types (st : b_st B) (lg L : list (list bytes)) (k r : arr n) (ks : list (arr n)) (vs : list V).
  Implicit Types (M : gmap (arr n) V) (hs : list (arr n * gmap (arr n) V)).
  Notation Sof L := (λ x, x ∈ L).
  Notation live := (live B H enc dec).
  Notation ainv := (ainv B H enc).

  Lemma live_ainv L st lg hs : no_collision H L → (∀ x, x ∈ lg → x ∈ L) →
    (∀ r M, (r, M) ∈ hs → live st lg r M) → ainv L st hs.
  Proof using Hn HB Hcodec.
    intros Hc Hsub Hl r M Hin.
    assert (no_collision H lg) as Hc0 by (eapply no_collision_sub; [exact Hsub|done]).
    destruct (Release.live_both Hn B H enc dec Hcodec st lg r M (Hl _ _ Hin) Hc0) as (t & Hr & Hwf & Hs1 & Hs2 & Hpre & He & _).
    exists t. split_and!; try done. eapply Forall_impl; [exact Hpre|]. exact Hsub.
  Qed.
  (** Roots of equal contents are equal. *)
  Lemma ainv_root L st hs r M (B2 : backend n) {HB2 : BackendOk B2} (st2 : b_st B2) lg2 r2 : ainv L st hs → (r, M) ∈ hs →
    Spec.live B2 H enc dec st2 lg2 r2 M → no_collision H lg2 → r = r2.
  Proof using Hn Hcodec.
    intros Hi Hin Hl Hc. destruct (Hi r M Hin) as (t & -> & Hwf & _ & _ & _ & He).
    destruct (live_handle Hn B2 H enc dec Hcodec st2 lg2 r2 M Hl Hc) as (t' & Hr & Hwf' & _ & _ & He'). cbn [fst snd] in *. subst r2.
    f_equal. apply twf_map_inj; [done|done|]. by eapply encs_fun.
  Qed.

  Definition among st lg prev M : Prop := match prev with Some r => live st lg r M | None => M = ∅ end.
  Definition prev_list (prev : option (arr n)) M : list (arr n * gmap (arr n) V) := match prev with Some r => [(r, M)] | None => [] end.
  Lemma among_list st lg prev M : among st lg prev M → (∀ r0 M0, (r0, M0) ∈ prev_list prev M → live st lg r0 M0) ∧ prev_holds (prev_list prev M) prev M.
  Proof using.
    destruct prev as [r|]; cbn; intros Ha; (split; [|done || by left]).
    - intros r0 M0 Hin. by apply elem_of_list_singleton in Hin as [= -> ->].
    - intros r0 M0 Hin. by apply elem_of_nil in Hin.
  Qed.

  (** C03 *)
  Theorem every_insert st lg D prev M ks vs : among st lg prev M →
    no_collision H (lg ++ hlog B H (insert enc D prev ks vs) st) → mild M ks →
    length ks = length vs → ks ≠ [] → NoDup ks → (∀ v, v ∈ vs → ∃ e, enc v = Ok e) → (prev = None ∨ 8 * n ≤ D) →
    ∃ r', out B H (insert enc D prev ks vs) st = ROk r' ∧
      serves B H enc dec (fin B H (insert enc D prev ks vs) st) r' (updated M ks vs) ∧
      (∀ r0 M0, live st lg r0 M0 → serves B H enc dec (fin B H (insert enc D prev ks vs) st) r0 M0) ∧
      (∀ (B2 : backend n) (HB2 : BackendOk B2) (st2 : b_st B2) lg2 r2, Spec.live B2 H enc dec st2 lg2 r2 (updated M ks vs) →
         no_collision H lg2 → r' = r2).
  Proof using Hn HB Hcodec Hle.
    intros Ha Hc Hb Hlen Hne Hnd Hen HD. set (L := lg ++ _) in *.
    destruct (among_list st lg prev M Ha) as [Hal Hpl].
    assert (∀ hs, (∀ r M, (r, M) ∈ hs → live st lg r M) → prev_holds hs prev M →
      ∃ r', out B H (insert enc D prev ks vs) st = ROk r' ∧ ainv L (fin B H (insert enc D prev ks vs) st) ((r', updated M ks vs) :: hs)) as Hall.
    { intros hs Hhs Hp.
      assert (ainv L st hs) as Hi. { eapply live_ainv; [exact Hc| |exact Hhs]. intros x Hx. apply elem_of_app. by left. }
      pose proof (ainv_insert Hn B H enc dec Hcodec Hle L st hs D prev M ks vs Hc Hi Hp Hb ltac:(intros; apply elem_of_app; by right)) as Hw.
      destruct (out B H (insert enc D prev ks vs) st) as [r'| | |]; [exists r'; by destruct Hw|exfalso..];
      (destruct Hw as [?|[?|[?|[(v & er & Hv & He)|[Hs ?]]]]]; try done;
        [destruct (Hen v Hv); congruence|destruct HD as [->|]; [by destruct Hs|lia]]). }
    destruct (Hall _ Hal Hpl) as (r' & Ho & Hw).
    exists r'. split; [done|]. split; [eapply (ainv_serves Hn B H enc dec Hcodec); [exact Hw|by left]|]. split.
    - intros r0 M0 Hl0. destruct (Hall ((r0, M0) :: prev_list prev M)) as (r'' & _ & Hw').
      + intros r1 M1 [[= -> ->]|Hin]%elem_of_cons; [done|by apply Hal].
      + destruct prev; [by right|done].
      + eapply (ainv_serves Hn B H enc dec Hcodec); [exact Hw'|]. right. by left.
    - intros B2 HB2 st2 lg2 r2 Hl2 Hc2. eapply (ainv_root _ _ _ _ _ B2); [exact Hw|by left|exact Hl2|done].
  Qed.

  (** C27 *)
  Lemma ainv_tree_ok L st hs r M : ainv L st hs → (r, M) ∈ hs → tree_ok (b_vis B st) r M.
  Proof using.
    intros Hi Hin. destruct (Hi r M Hin) as (t & -> & ? & ? & _ & ? & ?).
    eapply (handle_tree_ok H enc L). exists t. by split_and!.
  Qed.
  Theorem live_tree_ok st lg r M : live st lg r M → no_collision H lg → tree_ok (b_vis B st) r M.
  Proof using Hn HB Hcodec.
    intros Hl Hc. eapply (handle_tree_ok H enc). by eapply (live_handle Hn B H enc dec Hcodec).
  Qed.
  Theorem every_tree_ok st lg D prev M ks vs r' : among st lg prev M →
    no_collision H (lg ++ hlog B H (insert enc D prev ks vs) st) → mild M ks →
    out B H (insert enc D prev ks vs) st = ROk r' →
    tree_ok (b_vis B (fin B H (insert enc D prev ks vs) st)) r' (updated M ks vs) ∧
    (∀ r0 M0, live st lg r0 M0 → tree_ok (b_vis B (fin B H (insert enc D prev ks vs) st)) r0 M0).
  Proof using Hn HB Hcodec Hle.
    intros Ha Hc Hb Ho. set (L := lg ++ _) in *. destruct (among_list st lg prev M Ha) as [Hal Hpl].
    assert (∀ hs, (∀ r M, (r, M) ∈ hs → live st lg r M) → prev_holds hs prev M →
      ainv L (fin B H (insert enc D prev ks vs) st) ((r', updated M ks vs) :: hs)) as Hall.
    { intros hs Hhs Hp.
      assert (ainv L st hs) as Hi. { eapply live_ainv; [exact Hc| |exact Hhs]. intros x Hx. apply elem_of_app. by left. }
      pose proof (ainv_insert Hn B H enc dec Hcodec Hle L st hs D prev M ks vs Hc Hi Hp Hb ltac:(intros; apply elem_of_app; by right)) as Hw.
      rewrite Ho in Hw. by destruct Hw. }
    split; [eapply ainv_tree_ok; [by apply Hall|by left]|].
    intros r0 M0 Hl0. eapply ainv_tree_ok; [apply (Hall ((r0, M0) :: prev_list prev M))|right; by left].
    - intros r1 M1 [[= -> ->]|Hin]%elem_of_cons; [done|by apply Hal].
    - destruct prev; [by right|done].
  Qed.
  Theorem any_tree_ok st D ks vs r : no_collision H (hlog B H (insert enc D None ks vs) st) →
    out B H (insert enc D None ks vs) st = ROk r →
    tree_ok (b_vis B (fin B H (insert enc D None ks vs) st)) r (list_to_map (zip ks vs) : gmap (arr n) V).
  Proof using Hn HB Hcodec Hle.
    intros Hc Ho. rewrite <- (right_id_L ∅ (∪) (list_to_map (zip ks vs))).
    refine (proj1 (every_tree_ok st [] D None ∅ ks vs r eq_refl Hc _ Ho)). left. apply benign_empty.
  Qed.

  (** C63 *)
  Theorem every_again st lg D r M ks vs : live st lg r M →
    no_collision H (lg ++ hlog B H (insert enc D (Some r) ks vs) st) →
    length ks = length vs → ks ≠ [] → NoDup ks → (∀ k v, (k, v) ∈ zip ks vs → M !! k = Some v) → 8 * n ≤ D →
    out B H (insert enc D (Some r) ks vs) st = ROk r.
  Proof using Hn HB Hcodec Hle.
    intros Hl Hc Hlen Hne Hnd Hkv HD.
    assert (no_collision H lg) as Hc0. { eapply no_collision_sub; [|exact Hc]. intros x Hx. apply elem_of_app. by left. }
    assert (∀ k, k ∈ ks → is_Some (M !! k)) as Hpres.
    { intros k [i Hi]%elem_of_list_lookup. destruct (lookup_lt_is_Some_2 vs i) as [v Hv]; [rewrite <- Hlen; by eapply lookup_lt_Some|].
      exists v. apply Hkv. apply elem_of_list_lookup. exists i. by rewrite lookup_zip_with, Hi, Hv. }
    assert (∀ v, v ∈ vs → ∃ e, enc v = Ok e) as Hen.
    { intros v [i Hi]%elem_of_list_lookup. destruct (lookup_lt_is_Some_2 ks i) as [k Hk]; [rewrite Hlen; by eapply lookup_lt_Some|].
      destruct (live_handle Hn B H enc dec Hcodec st lg r M Hl Hc0) as (t & _ & _ & _ & _ & He). specialize (He k). cbn [snd] in He.
      rewrite (Hkv k v) in He; [inversion He; eauto|]. apply elem_of_list_lookup. exists i. by rewrite lookup_zip_with, Hk, Hi. }
    assert (updated M ks vs = M) as Hup.
    { apply map_eq. intros k. unfold updated. destruct ((list_to_map (zip ks vs) : gmap (arr n) V) !! k) as [v|] eqn:E.
      - rewrite (lookup_union_Some_l _ _ _ _ E). apply elem_of_list_to_map_2 in E. by rewrite (Hkv k v E).
      - by rewrite lookup_union_r. }
    destruct (every_insert st lg D (Some r) M ks vs) as (r' & Ho & _ & _ & Hr); try done; [|by right|].
    { left. by apply benign_one_new, present_one_new. }
    rewrite Ho. f_equal. apply (Hr B HB st lg r); [by rewrite Hup|done].
  Qed.

  (** C56 *)
  Lemma every_each_inv L kvs st hs D prev M : no_collision H L → ainv L st hs → prev_holds hs prev M →
    (∀ x, x ∈ hlog B H (insert_each enc D prev kvs) st → x ∈ L) →
    (∀ k v, (k, v) ∈ kvs → ∃ e, enc v = Ok e) → 8 * n ≤ D → kvs ≠ [] →
    ∃ r hs', out B H (insert_each enc D prev kvs) st = ROk (Some r) ∧ ainv L (fin B H (insert_each enc D prev kvs) st) hs' ∧
      (r, written M kvs) ∈ hs' ∧ (∀ h, h ∈ hs → h ∈ hs').
  Proof using Hn HB Hcodec Hle.
    intros Hc. revert st hs prev M. induction kvs as [|[k v] kvs IH]; intros st hs prev M Hi Hp Hlg He HD Hne; [done|]. clear Hne.
    cbn [insert_each] in *.
    assert (∀ x, x ∈ hlog B H (insert enc D prev [k] [v]) st → x ∈ L) as Hlg1.
    { intros x Hx. apply Hlg. unfold hlog in *. rewrite run_bind, insert_one_insert.
      destruct (run B H (insert enc D prev [k] [v]) st) as [[[a|e| |] s'] lg'] eqn:Hr; try done.
      destruct (run B H (insert_each enc D (Some a) kvs) s') as [[o s''] lg'']. cbn in *. apply elem_of_app. by left. }
    pose proof (ainv_insert Hn B H enc dec Hcodec Hle L st hs D prev M [k] [v] Hc Hi Hp (or_introl (benign_single M k)) Hlg1) as Hw.
    destruct (out B H (insert enc D prev [k] [v]) st) as [r|er| |] eqn:Hout.
    2-4: exfalso; destruct Hw as [?|[?|[Hnd|[(v' & er' & Hv' & He')|[_ ?]]]]]; try done; [by destruct Hnd; apply NoDup_singleton| |lia];
      apply elem_of_list_singleton in Hv' as ->; destruct (He k v ltac:(by left)); congruence.
    destruct Hw as [Hw _]. rewrite updated_single in Hw.
    assert (∀ A (f : arr n → prog n A),
      out B H (r ← insert_one enc D prev k v; f r) st = out B H (f r) (fin B H (insert enc D prev [k] [v]) st) ∧
      fin B H (r ← insert_one enc D prev k v; f r) st = fin B H (f r) (fin B H (insert enc D prev [k] [v]) st) ∧
      hlog B H (r ← insert_one enc D prev k v; f r) st =
        hlog B H (insert enc D prev [k] [v]) st ++ hlog B H (f r) (fin B H (insert enc D prev [k] [v]) st)) as Hb.
    { intros A f. unfold out, fin, hlog in *. rewrite run_bind, insert_one_insert.
      destruct (run B H (insert enc D prev [k] [v]) st) as [[o s'] lg'] eqn:Hr. cbn [fst snd] in *. subst o.
      by destruct (run B H (f r) s') as [[o s''] lg'']. }
    destruct (Hb _ (λ r, insert_each enc D (Some r) kvs)) as (-> & -> & Hlog). rewrite Hlog in *. clear Hb Hlog.
    destruct kvs as [|kv kvs].
    - exists r, ((r, <[k := v]> M) :: hs). cbn [insert_each]. split_and!; [done|done|left|by right].
    - destruct (IH _ _ (Some r) (<[k := v]> M) Hw ltac:(by left)) as (r' & hs' & Ho & Hw' & Hin & Hsub); try done.
      + intros x Hx. apply Hlg, elem_of_app. by right.
      + intros k' v' Hkv. eapply He. by right.
      + exists r', hs'. split_and!; try done. intros h Hh0. apply Hsub. by right.
  Qed.
  Theorem every_each st lg D prev M kvs : among st lg prev M →
    no_collision H (lg ++ hlog B H (insert_each enc D prev kvs) st) →
    (∀ k v, (k, v) ∈ kvs → ∃ e, enc v = Ok e) → 8 * n ≤ D → kvs ≠ [] →
    ∃ r, out B H (insert_each enc D prev kvs) st = ROk (Some r) ∧
      serves B H enc dec (fin B H (insert_each enc D prev kvs) st) r (foldl (λ m kv, <[kv.1 := kv.2]> m) M kvs) ∧
      (∀ r0 M0, live st lg r0 M0 → serves B H enc dec (fin B H (insert_each enc D prev kvs) st) r0 M0) ∧
      (∀ (B2 : backend n) (HB2 : BackendOk B2) (st2 : b_st B2) lg2 r2,
         Spec.live B2 H enc dec st2 lg2 r2 (foldl (λ m kv, <[kv.1 := kv.2]> m) M kvs) → no_collision H lg2 → r = r2).
  Proof using Hn HB Hcodec Hle.
    intros Ha Hc He HD Hne. set (L := lg ++ _) in *. destruct (among_list st lg prev M Ha) as [Hal Hpl].
    assert (∀ hs, (∀ r M, (r, M) ∈ hs → live st lg r M) → prev_holds hs prev M →
      ∃ r hs', out B H (insert_each enc D prev kvs) st = ROk (Some r) ∧ ainv L (fin B H (insert_each enc D prev kvs) st) hs' ∧
      (r, written M kvs) ∈ hs' ∧ (∀ h, h ∈ hs → h ∈ hs')) as Hall.
    { intros hs Hhs Hp. apply every_each_inv; try done.
      - eapply live_ainv; [exact Hc| |exact Hhs]. intros x Hx. apply elem_of_app. by left.
      - intros x Hx. apply elem_of_app. by right. }
    destruct (Hall _ Hal Hpl) as (r & hs' & Ho & Hw & Hin & _).
    exists r. split; [done|]. split; [by eapply (ainv_serves Hn B H enc dec Hcodec)|]. split.
    - intros r0 M0 Hl0. destruct (Hall ((r0, M0) :: prev_list prev M)) as (r'' & hs'' & _ & Hw' & _ & Hsub).
      + intros r1 M1 [[= -> ->]|Hi1]%elem_of_cons; [done|by apply Hal].
      + destruct prev; [by right|done].
      + eapply (ainv_serves Hn B H enc dec Hcodec); [exact Hw'|]. apply Hsub. by left.
    - intros B2 HB2 st2 lg2 r2 Hl2 Hc2. by eapply (ainv_root _ _ _ _ _ B2).
  Qed.

  (** C02 *)
  Theorem every_one st lg D r M k v : live st lg r M →
    no_collision H (lg ++ hlog B H (insert_one enc D (Some r) k v) st) → (∃ e, enc v = Ok e) → 8 * n ≤ D →
    ∃ r', out B H (insert_one enc D (Some r) k v) st = ROk r' ∧
      serves B H enc dec (fin B H (insert_one enc D (Some r) k v) st) r' (<[k := v]> M) ∧
      (∀ r0 M0, live st lg r0 M0 → serves B H enc dec (fin B H (insert_one enc D (Some r) k v) st) r0 M0) ∧
      (∀ (B2 : backend n) (HB2 : BackendOk B2) (st2 : b_st B2) lg2 r2, Spec.live B2 H enc dec st2 lg2 r2 (<[k := v]> M) →
         no_collision H lg2 → r' = r2).
  Proof using Hn HB Hcodec Hle.
    rewrite insert_one_insert. intros Hl Hc He HD. rewrite <- updated_single. apply every_insert with (lg := lg); try done.
    - left. apply benign_single.
    - apply NoDup_singleton.
    - by intros v' ->%elem_of_list_singleton.
    - by right.
  Qed.
  (** C55 *)
  Theorem every_few st lg D r M ks vs : live st lg r M →
    no_collision H (lg ++ hlog B H (insert enc D (Some r) ks vs) st) → few M ks →
    length ks = length vs → ks ≠ [] → NoDup ks → (∀ v, v ∈ vs → ∃ e, enc v = Ok e) → 8 * n ≤ D →
    ∃ r', out B H (insert enc D (Some r) ks vs) st = ROk r' ∧
      serves B H enc dec (fin B H (insert enc D (Some r) ks vs) st) r' (updated M ks vs) ∧
      (∀ r0 M0, live st lg r0 M0 → serves B H enc dec (fin B H (insert enc D (Some r) ks vs) st) r0 M0).
  Proof using Hn HB Hcodec Hle.
    intros Hl Hc Hf Hlen Hne Hnd Hen HD.
    destruct (every_insert st lg D (Some r) M ks vs Hl Hc (few_mild M ks Hf) Hlen Hne Hnd Hen (or_intror HD)) as (r' & H1 & H2 & H3 & _).
    by exists r'.
  Qed.
  (** C56: the same root as the batch *)
  Theorem every_batch st lg D prev M ks vs : among st lg prev M → mild M ks →
    no_collision H (lg ++ hlog B H (insert enc D prev ks vs) st ++ hlog B H (insert_each enc D prev (zip ks vs)) st) →
    length ks = length vs → ks ≠ [] → NoDup ks → (∀ v, v ∈ vs → ∃ e, enc v = Ok e) → 8 * n ≤ D →
    ∃ r, out B H (insert enc D prev ks vs) st = ROk r ∧ out B H (insert_each enc D prev (zip ks vs)) st = ROk (Some r).
  Proof using Hn HB Hcodec Hle.
    intros Ha Hb Hc Hlen Hne Hnd He HD. set (L := lg ++ _) in *. destruct (among_list st lg prev M Ha) as [Hal Hpl].
    assert (ainv L st (prev_list prev M)) as Hi.
    { eapply live_ainv; [exact Hc| |exact Hal]. intros x Hx. apply elem_of_app. by left. }
    pose proof (ainv_insert Hn B H enc dec Hcodec Hle L st _ D prev M ks vs Hc Hi Hpl Hb
      ltac:(intros x Hx; apply elem_of_app; right; apply elem_of_app; by left)) as Hw.
    destruct (every_each_inv L (zip ks vs) st _ D prev M Hc Hi Hpl) as (r' & hs' & Ho' & Hw' & Hin & _); try done.
    { intros x Hx. apply elem_of_app; right; apply elem_of_app; by right. }
    { intros k v Hkv. apply He. by eapply elem_of_zip_r. }
    { destruct ks, vs; done. }
    rewrite Ho'. destruct (out B H (insert enc D prev ks vs) st) as [r| | |].
    2-4: exfalso; destruct Hw as [?|[?|[?|[(v & er & Hv & Hx)|[_ ?]]]]]; try done; [destruct (He v Hv); congruence|lia].
    exists r. split; [done|]. do 2 f_equal. destruct Hw as [Hw _]. rewrite written_updated in Hin by done.
    destruct (Hw r (updated M ks vs) ltac:(by left)) as (t & -> & Hwf & _ & _ & _ & He1).
    destruct (Hw' r' _ Hin) as (t' & -> & Hwf' & _ & _ & _ & He2). f_equal. apply twf_map_inj; [done|done|]. by eapply encs_fun.
  Qed.
End Every.

(** ** Copied trees *)
Section EveryCopy.
  Context {n : nat} (Hn : 0 < n) (B1 B : backend n) {HB1 : BackendOk B1} {HB : BackendOk B} (H : list bytes → arr n).
  Context {V : Type} (enc : V → res bytes) (dec : bytes → res V) (Hcodec : codec_ok enc dec) (Hle : lazy_or_eager B).
  (** C89 *)
  Theorem away_tree_ok st lg hs r (M : gmap (arr n) V) : away B1 B H enc dec st lg hs → no_collision H lg → (r, M) ∈ hs →
    tree_ok (b_vis B st) r M.
  Proof using Hn HB1 HB Hcodec Hle.
    intros Ha Hc Hin. eapply (ainv_tree_ok B H enc lg); [|exact Hin]. by eapply (away_inv Hn B1 B H enc dec Hcodec Hle).
  Qed.
End EveryCopy.

(** ** In the bytes of the database *)
Section EveryBytes.
  Context (M : build) {n : nat} (Hn : 0 < n) (H : list bytes → arr n).
  Context {V : Type} (enc : V → res bytes) (dec : bytes → res V).
  Context (Hbits : fits (wptr M) (8 * n)) (Hr64 : (wref M ≤ 64)%N) (Hp64 : (wptr M ≤ 64)%N) (Hcodec : codec_ok enc dec).
  Notation RB := (rocks_db n).
  Implicit Types (st : b_st RB) (lg : list (list bytes)).

  (** C76 *)
  Theorem every_bytes st lg K W r Mp D ks vs : used RB H enc dec st lg K W → live RB H enc dec st lg r Mp → mild Mp ks →
    length ks = length vs → ks ≠ [] → NoDup ks → (∀ v, v ∈ vs → ∃ e, enc v = Ok e) → 8 * n + 1 ≤ D →
    let p := insert enc D (Some r) ks vs in
    no_collision H (lg ++ hlog RB H p st) → short (lg ++ hlog RB H p st) →
    fits (wptr M) (D + 1) → fits (wptr M) (length ks) → fits (wref M) (1 + K + length ks) →
    fits (wref M) (W + writes RB H p st + 1) → fits (wcnt M) (writes RB H p st) → fits (wptr M) (writes RB H p st) →
    ∃ r' z, brun H (m_insert M enc D (Some r) ks vs) (ser st) = (ROk r', z) ∧
      (∀ k, brun H (m_get_one M dec D r' k) z = (ROk ((list_to_map (zip ks vs) ∪ Mp) !! k), z)) ∧
      (∀ r0 M0 k, live RB H enc dec st lg r0 M0 → brun H (m_get_one M dec D r0 k) z = (ROk (M0 !! k), z)).
  Proof.
    intros Hu Hl Hm Hlen Hne Hnd Henc HD p Hc Hsh Hf Hk HK HW Hw1 Hw2.
    destruct (every_insert Hn RB H enc dec Hcodec (rocks_lazy n) st lg D (Some r) Mp ks vs Hl Hc Hm Hlen Hne Hnd Henc ltac:(right; lia))
      as (r' & Hout & Hser & Hold & _). fold p in Hout, Hser, Hold.
    destruct (drop_result RB H p st) as (E1 & E2 & E3).
    change (p ;; mret tt) with (exec enc dec (CInsert D (Some r) ks vs)) in E1, E2, E3.
    assert (∀ s', s' ∈ states RB H p st → small_st s') as Hs.
    { intros s' Hin. eapply (call_small M Hn H enc dec Hbits Hr64 Hp64 st lg K W (CInsert D (Some r) ks vs)); [exact Hu| | | | |];
        [by rewrite E3|by rewrite E3|exact HK|by rewrite E2|by rewrite E1]. }
    destruct (alike_bytes H (m_insert M enc D (Some r) ks vs) p st) as [Eb _]; [|exact Hs|].
    { exact (used_insert M Hn RB H enc dec Hbits st lg K W D (Some r) ks vs Hu Hc Hf Hk HK HW Hw1 Hw2). }
    assert (∀ r1 M1 k, serves RB H enc dec (fin RB H p st) r1 M1 →
      brun H (m_get_one M dec D r1 k) (ser (fin RB H p st)) = (ROk (M1 !! k), ser (fin RB H p st))) as Hr.
    { intros r1 M1 k (Hs1 & _).
      rewrite (read_bytes H _ (get_one dec D r1 k) (fin RB H p st)); [by rewrite Hs1| |apply readonly_get_one|].
      - exact (get_one_alike M Hn RB H dec Hbits D r1 k _ Hf).
      - apply Hs, run_in_states. }
    exists r', (ser (fin RB H p st)). rewrite Eb, Hout. split; [done|]. split; [intros k; by apply Hr|].
    intros r0 M0 k Hl0. by apply Hr, Hold.
  Qed.
End EveryBytes.

(** ** What a live root commits to *)
Section EveryRoot.
  Context {n : nat} (Hn : 0 < n) (B : backend n) {HB : BackendOk B} (H : list bytes → arr n).
  Context {V : Type} (enc : V → res bytes) (dec : bytes → res V) (Hcodec : codec_ok enc dec).
  Implicit Types (st : b_st B) (lg L : list (list bytes)) (k r : arr n) (ks : list (arr n)) (M : gmap (arr n) V).
  Notation live := (live B H enc dec).

  (** C09 *)
  Theorem live_root_determined (B2 : backend n) {HB2 : BackendOk B2} st lg r M (st2 : b_st B2) lg2 r2 : live st lg r M →
    Spec.live B2 H enc dec st2 lg2 r2 M → no_collision H lg → no_collision H lg2 → r = r2.
  Proof using Hn HB Hcodec.
    intros Hl1 Hl2 Hc1 Hc2.
    destruct (live_handle Hn B H enc dec Hcodec st lg r M Hl1 Hc1) as (t1 & Ht1 & Hw1 & _ & _ & He1).
    destruct (live_handle Hn B2 H enc dec Hcodec st2 lg2 r2 M Hl2 Hc2) as (t2 & Ht2 & Hw2 & _ & _ & He2).
    cbn [fst snd] in *. subst r r2. f_equal. apply twf_map_inj; [done|done|]. by eapply encs_fun.
  Qed.
  (** C10 *)
  Theorem live_root_commits (B2 : backend n) {HB2 : BackendOk B2} st lg r M (st2 : b_st B2) lg2 M2 : live st lg r M →
    Spec.live B2 H enc dec st2 lg2 r M2 → no_collision H (lg ++ lg2) → M = M2.
  Proof using Hn HB Hcodec.
    intros Hl1 Hl2 Hc.
    assert (no_collision H lg) as Hc1 by (by eapply no_collision_app_l).
    assert (no_collision H lg2) as Hc2
      by (eapply no_collision_sub; [|exact Hc]; intros x ?; apply elem_of_app; by right).
    destruct (live_handle Hn B H enc dec Hcodec st lg r M Hl1 Hc1) as (t1 & Ht1 & Hw1 & _ & Hp1 & He1).
    destruct (live_handle Hn B2 H enc dec Hcodec st2 lg2 r M2 Hl2 Hc2) as (t2 & Ht2 & Hw2 & _ & Hp2 & He2).
    cbn [fst snd] in *. assert (t1 = t2) as ->; [|by eapply encs_inj].
    eapply (troot_inj H (λ x, x ∈ lg ++ lg2)); [exact Hc| | |congruence].
    - eapply Forall_impl; [exact Hp1|]. intros x ?. apply elem_of_app. by left.
    - eapply Forall_impl; [exact Hp2|]. intros x ?. apply elem_of_app. by right.
  Qed.
  (** C48, C12 *)
  Theorem live_proof_unique st lg r M D k v p (B' : backend n) (st' : b_st B') :
    live st lg r M → 8 * n + 1 ≤ D →
    no_collision H (lg ++ hlog B' H (verify_inclusion_proof enc r k v p) st') →
    out B' H (verify_inclusion_proof enc r k v p) st' = ROk tt →
    M !! k = Some v ∧ ∃ p', out B H (generate_inclusion_proof D r k) st = ROk p' ∧ p.*1 = p'.*1 ∧ drop 2 p = drop 2 p'.
  Proof using Hn HB Hcodec.
    intros Hl HD Hc Hout. set (L := lg ++ _) in *.
    assert (no_collision H lg) as Hc1 by (by eapply no_collision_app_l).
    destruct (live_handle Hn B H enc dec Hcodec st lg r M Hl Hc1) as (t & Hroot & Hwf & Hst & Hpre & He). cbn [fst snd] in *.
    assert (Forall (λ x, x ∈ L) (tpre H t)) as HpreL. { eapply Forall_impl; [exact Hpre|]. intros x ?. apply elem_of_app. by left. }
    destruct (verify_ok_inv B' H enc r k v p st' Hout)
      as (e & p0 & p1 & items & Hev & -> & Hp0 & Hp1 & Hfold & Hlog).
    assert (tlookup t k = Some e ∧ items = reverse (tpath H t k)) as [Hk ->].
    { apply (vfold_unique H (λ x, x ∈ L) Hc); try done.
      - apply elem_of_app. right. rewrite Hlog. by left.
      - apply elem_of_app. right. rewrite Hlog. right. by left.
      - apply Forall_forall. intros x Hx. apply elem_of_app. right. rewrite Hlog. right. by right.
      - congruence. }
    split.
    - pose proof (encs_dec enc dec Hcodec M _ k He) as Hd. rewrite <- tlookup_tmap in Hd by done. rewrite Hk in Hd.
      destruct Hd as (v' & Hv' & HM). rewrite (dec_enc _ _ Hcodec v e Hev) in Hv'. congruence.
    - exists (reverse (tproof H t k)). rewrite Hroot.
      rewrite (gen_proof_run Hn B H D k t st Hst ltac:(by apply twf_tpwf)).
      pose proof (tneed_depth Hn t k). pose proof (twf_depth t Hwf).
      rewrite (proj2 (Nat.ltb_ge D (tneed t k))) by lia. rewrite Hk. split; [done|].
      rewrite (tproof_path H t k e Hk), reverse_app. cbn. split; congruence.
  Qed.
  Theorem live_proofs_sound st lg r M k v p (B' : backend n) (st' : b_st B') : live st lg r M →
    no_collision H (lg ++ hlog B' H (verify_inclusion_proof enc r k v p) st') →
    out B' H (verify_inclusion_proof enc r k v p) st' = ROk tt → M !! k = Some v.
  Proof using Hn HB Hcodec.
    intros Hl Hc Ho. exact (proj1 (live_proof_unique st lg r M (8 * n + 1) k v p B' st' Hl ltac:(lia) Hc Ho)).
  Qed.
  (** C14 *)
  Theorem live_one_value st lg r M k v1 v2 p1 p2 (B1 B2 : backend n) (st1 : b_st B1) (st2 : b_st B2) : live st lg r M →
    no_collision H (lg ++ hlog B1 H (verify_inclusion_proof enc r k v1 p1) st1
                       ++ hlog B2 H (verify_inclusion_proof enc r k v2 p2) st2) →
    out B1 H (verify_inclusion_proof enc r k v1 p1) st1 = ROk tt →
    out B2 H (verify_inclusion_proof enc r k v2 p2) st2 = ROk tt → v1 = v2.
  Proof using Hn HB Hcodec.
    intros Hl Hc H1 H2.
    apply (live_proofs_sound st lg r M k v1 p1 B1 st1) in H1; try done.
    2:{ eapply no_collision_sub; [|done]. intros x. rewrite !elem_of_app. naive_solver. }
    apply (live_proofs_sound st lg r M k v2 p2 B2 st2) in H2; try done.
    2:{ eapply no_collision_sub; [|done]. intros x. rewrite !elem_of_app. naive_solver. }
    congruence.
  Qed.
  (** C60 *)
  Theorem live_overwrite st lg r M k v p D0 v' D : live st lg r M →
    no_collision H (lg ++ hlog B H (insert_one enc D (Some r) k v') st) → M !! k = Some v →
    out B H (generate_inclusion_proof D0 r k) st = ROk p → (∃ e, enc v' = Ok e) →
    if length p <=? D + 2 then ∃ r', out B H (insert_one enc D (Some r) k v') st = ROk r'
    else out B H (insert_one enc D (Some r) k v') st = RErr "Depth of merkle tree exceeded".
  Proof using Hn HB Hcodec.
    intros Hl Hc HM Hp He. assert (no_collision H lg) as Hc1 by (by eapply no_collision_app_l).
    destruct (need_exact Hn B H enc dec Hcodec st lg r M k v Hl Hc1 HM) as (p' & _ & _ & _ & Hnd).
    destruct (Hnd D0) as (Hg & _ & _). rewrite Hp in Hg. destruct (length p' <=? D0 + 1); [|done]. injection Hg as ->.
    destruct (Hnd D) as (_ & _ & Hg). rewrite insert_one_insert in *. destruct Hl as (hs & Hh & Hin).
    destruct (insert_outcome Hn B H enc dec Hcodec st lg hs D (Some r) M [k] [v'] Hh Hc Hin eq_refl ltac:(done)) as [_ Ho].
    destruct Ho as (Ho1 & _ & Ho3); [by intros x ->%elem_of_list_singleton|].
    destruct (length p' <=? D + 2).
    - destruct Ho3 as [?|[Hm _]]; [intros (r1 & [= <-] & Hx); congruence|apply NoDup_singleton|done|].
      exfalso. apply Hm. left. apply benign_single.
    - apply Ho1. by exists r.
  Qed.
End EveryRoot.

Section EveryLimits.
  Context {n : nat} (Hn : 0 < n) (B : backend n) {HB : BackendOk B} (H : list bytes → arr n).
  Context {V : Type} (enc : V → res bytes) (dec : bytes → res V) (Hcodec : codec_ok enc dec).
  Context (Hle : lazy_or_eager B).
  Implicit Types (st : b_st B) (lg L : list (list bytes)) (k r : arr n) (ks : list (arr n)) (vs : list V).
  Implicit Types (M : gmap (arr n) V) (hs : list (arr n * gmap (arr n) V)).

  (** C25: what a successful insertion into a live root says about the limits of reads. *)
  Theorem live_readable st lg D prev M ks vs r D' : among B H enc dec st lg prev M →
    no_collision H (lg ++ hlog B H (insert enc D prev ks vs) st) → mild M ks →
    out B H (insert enc D prev ks vs) st = ROk r →
    readable_depth D prev ks ≤ D' + 1 →
    let st' := fin B H (insert enc D prev ks vs) st in
    (∀ k, k ∈ ks → out B H (get_one dec (D' + 1) r k) st' = ROk (updated M ks vs !! k)) ∧
    (∀ ks', (∀ k, k ∈ ks' → k ∈ ks) → ∃ lm, out B H (get dec D' r ks') st' = ROk lm ∧
       ∀ k, k ∈ ks' → lm !! k = Some (updated M ks vs !! k)).
  Proof using Hn HB Hcodec Hle.
    intros Ha Hc Hb Hout HD st'. set (L := lg ++ _) in *. destruct (among_list B H enc dec st lg prev M Ha) as [Hal Hp].
    set (hs := prev_list prev M) in *.
    assert (ainv B H enc L st hs) as Hi.
    { eapply (live_ainv Hn B H enc dec Hcodec); [exact Hc| |exact Hal]. intros x Hx. apply elem_of_app. by left. }
    pose proof (ainv_insert Hn B H enc dec Hcodec Hle L st hs D prev M ks vs Hc Hi Hp Hb ltac:(intros; apply elem_of_app; by right)) as Hafter.
    rewrite Hout in Hafter. destruct Hafter as (Hafter & Hlen & Hne & Hnd).
    pose proof (AnyReads.any_accepted Hn B H enc D prev ks vs st r Hout) as (_ & _ & _ & Hen).
    destruct (plants_ok H enc L _ _ hs Hc Hi) as (m & Hpm & Hc1 & Hc2 & Hf).
    destruct (state_of B m) as (s & Hvs & Hws & _).
    destruct (refine_run B H Hle (insert enc D prev ks vs) (insert enc D prev ks vs) s st) as [Hll Hor];
      [apply refine_insert|by rewrite Hvs|by rewrite Hws|].
    assert (hinv B H enc L s hs) as Hhi.
    { split; [|by rewrite Hvs]. unfold J, Jp. rewrite Hvs, Hws. split_and!; [done|done|apply cle_refl|by intros l v]. }
    pose proof (insert_hist Hn B H enc dec Hcodec L s hs D prev M ks vs Hc Hhi Hp Hb) as Hw.
    apply wp_run in Hw; [|intros x Hx; apply elem_of_app; right; by apply Hll].
    pose proof (insert_slack Hn B H enc dec Hcodec L s hs D prev M ks vs Hc Hhi Hp Hb) as Hs.
    apply wp_run in Hs; [|intros x Hx; apply elem_of_app; right; by apply Hll].
    destruct Hor as [(e & Hm & Ho)|(Ho & _ & _)].
    { exfalso. rewrite Ho in Hw. destruct Hw as [_ Hw].
      destruct Hw as [?|[?|[?|[(v & Hv & Hev)|(-> & _)]]]]; [done|done|done| |by destruct Hm as [?|[?|?]]].
      destruct (Hen v Hv). congruence. }
    rewrite Hout in Ho. rewrite <- Ho in Hs. destruct Hs as (t & Hr & Ht & _ & He & Hk).
    destruct (Hafter r (updated M ks vs)) as (t' & Hr' & Ht' & Hst & _ & _ & He'); [by left|]. fold st' in Hst.
    assert (t' = t) as ->. { apply twf_map_inj; [done|done|]. by eapply encs_fun. }
    subst r. set (M' := updated M ks vs) in *. split.
    - intros k Hin. destruct (Hk k Hin) as [_ Hnd']. unfold out.
      rewrite (get_one_run Hn) by (auto using twf_tpwf). cbn [fst].
      destruct (Nat.ltb_spec (D' + 1) (tneed t k)); [lia|].
      rewrite tlookup_tmap by done. pose proof (encs_dec enc dec Hcodec M' _ k He) as Hd.
      destruct (tmap t !! k) as [e|]; [|by rewrite Hd]. destruct Hd as (v & -> & ->). done.
    - intros ks' Hsub.
      pose proof (get_wp Hn H B dec (dec_no_panic _ _ Hcodec) D' t ks' st' Hst (twf_tpwf t Ht)) as Hg.
      apply wp_run in Hg; [|by intros].
      assert (¬ hazard (has_key (tmap t)) (sort_keys ks')) as Hhz.
      { apply hazard_present. intros k Hin. apply tmap_has, Hk, Hsub. by apply elem_of_sort_keys. }
      destruct (out B H (get dec D' (troot H t) ks') st') as [lm|er| |]; try done.
      + destruct Hg as (_ & _ & Hex & _). exists lm. split; [done|]. intros k Hin. rewrite Hex by (done || by left). f_equal.
        unfold dec_opt. pose proof (encs_dec enc dec Hcodec M' _ k He) as Hd'.
        destruct (tmap t !! k) as [e|]; [|done]. destruct Hd' as (v & -> & ->). done.
      + exfalso. destruct Hg as (_ & [(-> & Hlt)|(k & e & Hin & Hde)]).
        * assert (wdep t (sort_keys ks') ≤ D'); [|lia].
          eapply (wdep_present Hn); [apply clean_old; [done|apply sort_keys_sorted|done]|].
          intros k Hin. destruct (Hk k) as [? ?]; [|split; [done|lia]]. apply Hsub. by apply elem_of_sort_keys.
        * destruct (tleaves_decodes enc dec Hcodec t M' k e) as (v' & Hv' & HM); try done. congruence.
  Qed.
  (** How the limits of the two reads of a live root relate. *)
  Theorem live_reads_limits st lg r M D k : live B H enc dec st lg r M → no_collision H lg →
    (∀ ks lm, mild M ks → k ∈ ks → out B H (get dec D r ks) st = ROk lm →
       out B H (get_one dec (D + 1) r k) st = ROk (M !! k)) ∧
    (∀ o, out B H (get_one dec D r k) st = ROk o → ∃ lm, out B H (get dec D r [k]) st = ROk lm).
  Proof using Hn Hcodec HB.
    intros Hl Hc. destruct (live_handle Hn B H enc dec Hcodec st lg r M Hl Hc) as (t & Hroot & Ht & Hst & _ & He).
    cbn [fst snd] in *. subst r. split.
    - intros ks lm Hb Hin Hout.
      pose proof (get_wp Hn H B dec (dec_no_panic _ _ Hcodec) D t ks st Hst (twf_tpwf t Ht)) as Hw.
      apply wp_run in Hw; [|by intros]. rewrite Hout in Hw.
      destruct Hw as (_ & _ & _ & Hd).
      assert (mild (tmap t) (sort_keys ks)) as Hhz.
      { apply mild_sort. by apply (encs_mild enc M (tmap t) ks He). }
      pose proof (tneed_wdep_mild Hn t (sort_keys ks) k Ht (sort_keys_sorted ks) Hhz
        ltac:(by apply elem_of_sort_keys)) as Hnd.
      unfold out. rewrite (get_one_run Hn) by (auto using twf_tpwf). cbn [fst].
      destruct (Nat.ltb_spec (D + 1) (tneed t k)); [lia|].
      rewrite tlookup_tmap by done. pose proof (encs_dec enc dec Hcodec M _ k He) as Hd'.
      destruct (tmap t !! k) as [e|]; [|by rewrite Hd']. destruct Hd' as (v & -> & ->). done.
    - intros o Hout. unfold out in Hout. rewrite (get_one_run Hn) in Hout by (auto using twf_tpwf). cbn [fst] in Hout.
      destruct (Nat.ltb_spec D (tneed t k)) as [|Hd]; [done|]. clear Hout.
      pose proof (get_wp Hn H B dec (dec_no_panic _ _ Hcodec) D t [k] st Hst (twf_tpwf t Ht)) as Hw.
      apply wp_run in Hw; [|by intros].
      set (o' := out B H (get dec D (troot H t) [k]) st) in *. clearbody o'.
      destruct o' as [lm|er| |]; try done; [by exists lm|].
      exfalso. destruct Hw as (_ & [(-> & Hlt)|(k1 & e & Hin & Hde)]).
      + change (sort_keys [k]) with [k] in Hlt. pose proof (wdep_tneed Hn t k Ht). lia.
      + destruct (tleaves_decodes enc dec Hcodec t M k1 e) as (v' & Hv' & HM); try done. congruence.
  Qed.
End EveryLimits.

(** ** What insertions into live roots add to the database (C28) *)
Section EveryGrowth.
  Context {n : nat} (Hn : 0 < n) (B : backend n) {HB : BackendOk B} (H : list bytes → arr n).
  Context {V : Type} (enc : V → res bytes) (dec : bytes → res V) (Hcodec : codec_ok enc dec).
  Implicit Types (st : b_st B) (lg L : list (list bytes)) (k r : arr n) (ks : list (arr n)) (vs : list V).
  Implicit Types (M : gmap (arr n) V) (hs : list (arr n * gmap (arr n) V)).
  Notation Sof L := (λ x : list bytes, x ∈ L).
  Let Henc : ∀ v, enc v ≠ Pan := enc_no_panic _ _ Hcodec.

  Lemma among_known L st lg prev M : among B H enc dec st lg prev M → no_collision H L → (∀ x, x ∈ lg → x ∈ L) →
    (∃ r, prev = Some r) → ∃ hs, prev_holds hs prev M ∧ Forall (handle_ok H enc L (b_vis B st)) hs ∧ Jp (shallow H (Sof L)) B (b_vis B st) st.
  Proof using Hn Hcodec HB.
    intros Ha Hc Hlg [r ->]. destruct Ha as (hs & Hh & Hin). exists hs. split; [done|].
    by apply (known_J Hn B H enc dec Hcodec L st lg hs).
  Qed.
  Theorem live_keeps st lg D r M ks vs st' : live B H enc dec st lg r M →
    no_collision H (lg ++ hlog B H (insert enc D (Some r) ks vs) st) → benign M ks →
    st' ∈ states B H (insert enc D (Some r) ks vs) st →
    ∀ l nd, b_vis B st !! l = Some nd → ∃ rf, b_vis B st' !! l = Some (Node rf (var nd)).
  Proof using Hn Hcodec HB.
    intros Hl Hc Hb Hst l nd Hnd. set (L := lg ++ _) in *.
    destruct (among_known L st lg (Some r) M Hl Hc) as (hs & Hp & Hh & HJ); [intros; apply elem_of_app; by left|eauto|].
    pose proof (insert_ev Hn B H enc dec Hcodec L st hs (b_vis B st) D (Some r) M ks vs no_floor (shallow H (Sof L)) Hc Hh
      (cle_refl _) Hp Hb (shallow_keeps H L Hc) HJ ltac:(intros; apply Nat.le_0_l)) as Hw.
    eapply wp_states in Hw; [|exact HJ|intros; apply elem_of_app; by right].
    rewrite Forall_forall in Hw. destruct (Hw _ Hst) as (_ & _ & _ & Hcle).
    apply has_lookup, Hcle, has_lookup. destruct nd as [rf v]. eauto.
  Qed.
  Lemma live_adds L st hs D prev M ks vs : inj_on H (Sof L) → Forall (handle_ok H enc L (b_vis B st)) hs →
    Jp (shallow H (Sof L)) B (b_vis B st) st → prev_holds hs prev M → benign M ks →
    wp B H (Sof L) (Jp (shallow H (Sof L)) B (b_vis B st)) (insert enc D prev ks vs)
      (λ r st', ∃ t, r = troot H t ∧ twf t ∧ stored H (b_vis B st') t ∧
         (∀ k, k ∈ ks → k ∈ tkeys t) ∧
         ∀ l, is_Some (b_vis B st' !! l) →
           is_Some (bview st !! l) ∨ ∃ k o, k ∈ ks ∧ o ∈ pobjs t k ∧ oloc H o = l)
      (λ _ _, True) st.
  Proof using Hn Hcodec HB.
    intros Hinj Hh HJ Hp Hb.
    unfold insert.
    destruct (Nat.eqb_spec (length ks) (length vs)) as [Hlen|Hlen]; [|simpl; auto]. simpl.
    destruct (Nat.eqb_spec (length ks) 0) as [Hz|Hne]; [done|].
    destruct (Nat.eqb_spec (length vs) 0) as [|Hne']; [lia|]. simpl.
    destruct (prev_old H enc L _ hs prev M Hh Hp) as (old & -> & Hok & Hwf & He).
    assert (¬ hazard (has_key (omap old)) (sort_keys ks)) as Hhz.
    { apply benign_sort. by apply (encs_benign enc M (omap old) ks He). }
    pose proof (or_introl Hhz : mild (omap old) (sort_keys ks)) as Hmd.
    assert (sort_keys ks ≠ []) as Hsne.
    { intros Hnil. apply Hne. rewrite <- sort_keys_length, Hnil. done. }
    eapply wp_mono; [| |apply (insert_sorted_wp_gen Hn H (Sof L) Hinj no_floor (shallow H (Sof L)) (shallow_keeps H L Hinj) B enc Henc D
      (sort_keys ks) (value_map_of ks vs) old st HJ Hok (sort_keys_sorted ks) Hsne)].
    - intros r st' (es & m' & P' & t & ts & -> & Hes & Hpre & Hev & HG & Hvis & Hpend & Hts & Hsort & Hlv & Hgd & Hdep).
      assert (length (sort_keys ks) = length es) as Hle by (by eapply Forall2_length).
      assert (twf t) as Ht.
      { apply Hgd. eapply result_good; eauto. apply sort_keys_sorted. }
      assert (tmap t = list_to_map (zip (sort_keys ks) es) ∪ omap old) as Htm.
      { eapply result_map; eauto. apply sort_keys_sorted. }
      assert (∀ z, z ∈ sort_keys ks → z ∈ tkeys t) as Hall.
      { intros z Hz. apply tmap_has. rewrite Htm.
        apply lookup_union_is_Some. left. apply not_eq_None_Some.
        rewrite <- not_elem_of_list_to_map, fst_zip by lia. auto. }
      pose proof HG as (_ & Hv' & _ & Htok). apply Forall_cons in Htok as [(Hst & _) _]. cbn [fst snd] in *.
      exists t. split_and!; [done|done|by rewrite Hvis, Hv'| |].
      { intros k Hk. apply Hall. by apply elem_of_sort_keys. }
      rewrite Hvis, Hv'.
      assert (Growth.made H (bview st) ks (λ p, p ∈ olddec old (sort_keys ks)) t (m', P', [t])) as [Hm _]; [|exact Hm].
      assert (∀ k e, isnew enc (sort_keys ks) (value_map_of ks vs) k e → k ∈ ks) as Hnew.
      { intros k e (Hk & _). by apply elem_of_sort_keys. }
      assert (∀ l r : trie n, l ∈ olddec old (sort_keys ks) → r ∈ olddec old (sort_keys ks) → ¬ subtrie (TNode l r) t) as Hj.
      { intros l r Hl Hr. eapply (no_join Hn old (sort_keys ks)); try done. apply sort_keys_sorted. }
      apply (Growth.evs_made H (Sof L) (bview st) ks _ _ _ t Ht Hnew Hj _ _ Hev).
      + intros u ->%elem_of_list_singleton. constructor.
      + split; simpl; [by left|by intros u ?%elem_of_nil].
    - done.
    - intros k Hk. apply value_map_some; [done|done|]. by apply elem_of_sort_keys.
    - intros es ts _ _ _ x bs1 l0 r0 bs2 _ _ _ _ _ _. apply Nat.le_0_l.
  Qed.
  Theorem live_size st lg D r M ks vs r' D' ps : live B H enc dec st lg r M →
    no_collision H (lg ++ hlog B H (insert enc D (Some r) ks vs) st) → benign M ks →
    out B H (insert enc D (Some r) ks vs) st = ROk r' →
    let st' := fin B H (insert enc D (Some r) ks vs) st in
    Forall2 (λ k p, out B H (generate_inclusion_proof D' r' k) st' = ROk p) ks ps →
    size (b_vis B st') ≤ size (b_vis B (b_flush B st)) + sum_list_with length ps.
  Proof using Hn Hcodec HB.
    intros Hl Hc Hb Hout st' Hps. set (L := lg ++ _) in *.
    destruct (among_known L st lg (Some r) M Hl Hc) as (hs & Hp & Hh & HJ); [intros; apply elem_of_app; by left|eauto|].
    pose proof (live_adds L st hs D (Some r) M ks vs Hc Hh HJ Hp Hb) as Hw.
    apply wp_run in Hw; [|intros; apply elem_of_app; by right]. rewrite Hout in Hw. fold st' in Hw.
    destruct Hw as (t & -> & Ht & Hst & _ & Hm).
    rewrite bvis_flush.
    assert (sum_list_with length ps = length (mjoin ((λ k, oloc H <$> pobjs t k) <$> ks))) as ->.
    { assert (Forall2 (λ k p, length p = length (pobjs t k)) ks ps) as Hlp.
      { eapply Forall2_impl; [exact Hps|]. intros k p Hkp. cbv beta in Hkp.
        rewrite (gen_proof_run Hn B H D' k t st' Hst (twf_tpwf t Ht)) in Hkp.
        destruct (D' <? tneed t k); [done|]. destruct (tlookup t k) as [e|] eqn:Hk; [|done].
        injection Hkp as <-. rewrite reverse_length, (tproof_path H t k e Hk), app_length, (pobjs_length H). done. }
      clear -Hlp. induction Hlp as [|k p ks ps Hkp _ IH]; [done|].
      change (length p + sum_list_with length ps =
        length ((oloc H <$> pobjs t k) ++ mjoin ((λ k, oloc H <$> pobjs t k) <$> ks))).
      rewrite app_length, fmap_length. lia. }
    apply size_list_bound. intros l Hl'. destruct (Hm l Hl') as [?|(k & o & Hk & Ho & <-)]; [by left|].
    right. apply elem_of_list_join. exists (oloc H <$> pobjs t k). split; [by apply elem_of_list_fmap_1|].
    apply elem_of_list_fmap. eauto.
  Qed.
End EveryGrowth.
