(** * When a removal after an insertion damages another root *)
From Coq Require Import Strings.Byte NArith.
From stdpp Require Import prelude countable gmap sorting strings.
From Verif Require Import Model Bits Spec Util Trie Store Logic Build Evol Route Reads Insert Update Safe Get
  Hist Claims RefCount RcInsert RcRemove Total Live Regrow Weak.

Local Open Scope nat_scope.

(** ** The counts of the branches an insertion makes *)
Section Ones.
  Context {n : nat} (H : list bytes → arr n).
  Context (S : list bytes → Prop) (Hinj : inj_on H S) {fl : arr n → nat}.
  Context (isnew : arr n → bytes → Prop) (piece : trie n → Prop) (dup : arr n → bytes → Prop).
  Context (Hold : ∀ p k e, piece p → isnew k e → k ∉ tkeys p).
  Implicit Types (x y : ist (n := n)) (u : trie n).
  Notation ev := (ev H S fl isnew piece dup).

  (** Every branch above a new leaf has count one. *)
  Definition ones x : Prop :=
    Forall (λ u, Forall S (tpre H u)) x.2 ∧
    ∀ u l r, u ∈ x.2 → subtrie (TNode l r) u → has_new isnew (TNode l r) →
      x.1.1 !! troot H (TNode l r) = Some (Node 1 (tvar H (TNode l r))).
  Lemma ones_put m P ts ts' o nd : ones (m, P, ts) → opre_ok H S o → (∀ l r, o = OT (TNode l r) → ¬ has_new isnew (TNode l r)) →
    Forall (λ u, u ∈ ts ∨ Forall S (tpre H u) ∧ ∀ l r, subtrie (TNode l r) u → ¬ has_new isnew (TNode l r)) ts' →
    ∀ P', ones (<[oloc H o := nd]> m, P', ts').
  Proof using Hinj.
    intros [Hpre Hones] Ho Hno Hts P'. rewrite Forall_forall in Hpre, Hts. cbn [fst snd] in *.
    assert (∀ u, u ∈ ts' → Forall S (tpre H u)) as Hp' by (intros u Hu; destruct (Hts u Hu) as [|[? _]]; auto).
    split; [by apply Forall_forall|]. cbn [fst snd]. intros u l r Hu Hsub Hnew.
    rewrite lookup_insert_ne.
    - destruct (Hts u Hu) as [Hu'|[_ Hn]]; [by eapply Hones|]. by destruct (Hn l r).
    - intros Heq. change (troot H (TNode l r)) with (oloc H (OT (TNode l r))) in Heq.
      apply (oloc_inj H S Hinj) in Heq; [by eapply Hno|done|]. apply (subtrie_pre H S _ _ Hsub). by apply Hp'.
  Qed.
  Lemma ev_ones x y : ev x y → ones x → ones y.
  Proof using Hinj Hold.
    intros Hev HI.
    inversion Hev as [m P ts k e rd rl Hnew Hd Hl Hbd Hbl|m P ts p rf Hpc Hst Hw Hpre Hb
      |m P ts k e rf Hnew Hdup Hst Hpre|m P ts l r ts' Hperm Hlt Hb]; subst.
    - change (lloc H k e) with (oloc H (OT (TLeaf k e))) at 1.
      eapply ones_put with (P := P) (ts := ts); [|by repeat constructor|done|].
      + change (dloc H k e) with (oloc H (OD k e)) at 1.
        eapply (ones_put m P ts ts); [done|by repeat constructor|done|]. apply Forall_forall. auto.
      + constructor; [right; split; [by repeat constructor|]|apply Forall_forall; auto].
        intros l r Hs. inversion Hs.
    - change (troot H p) with (oloc H (OT p)) at 1.
      assert (∀ l r, subtrie (TNode l r) p → ¬ has_new isnew (TNode l r)) as Hno.
      { intros l r Hs (k & e & Hnew & Hk). apply (Hold p k e Hpc Hnew).
        eapply subtrie_keys; [exact Hs|]. eapply subtrie_keys; [exact Hk|]. by left. }
      eapply (ones_put m P ts); [done|done| |].
      + intros l r [= ->]. apply Hno. constructor.
      + constructor; [by right|]. apply Forall_forall. auto.
    - change (lloc H k e) with (oloc H (OT (TLeaf k e))) at 1.
      eapply (ones_put m P ts ts); [done|done|done|]. apply Forall_forall. auto.
    - destruct HI as [Hpre Hones]. cbn [fst snd] in *. rewrite Forall_forall in Hpre.
      assert (Forall S (tpre H (TNode l r))) as Hlr.
      { cbn [tpre]. constructor; [done|]. apply Forall_app. split; apply Hpre; rewrite Hperm; set_solver. }
      split; cbn [fst snd].
      + constructor; [done|]. apply Forall_forall. intros u Hu. apply Hpre. rewrite Hperm. set_solver.
      + intros u l' r' Hu Hsub Hnew.
        destruct (decide (troot H (TNode l r) = troot H (TNode l' r'))) as [He|Hne].
        * rewrite He, lookup_insert. apply (troot_inj H S Hinj) in He; [by injection He as -> ->|done|].
          apply (subtrie_pre H S _ _ Hsub). apply elem_of_cons in Hu as [->|Hu]; [done|].
          apply Hpre. rewrite Hperm. set_solver.
        * rewrite lookup_insert_ne by done. apply elem_of_cons in Hu as [->|Hu].
          -- inversion Hsub; subst; [done| |]; (eapply Hones; [rewrite Hperm|done|done]); set_solver.
          -- eapply Hones; [rewrite Hperm|done|done]. set_solver.
  Qed.
  Lemma evs_ones x y : rtc ev x y → ones x → ones y.
  Proof using Hinj Hold. induction 1 as [|x y z Hev _ IH]; [done|]. intros HI. apply IH. by eapply ev_ones. Qed.
End Ones.

(** ** Removing a tree in which the way to a node has counts one *)
Section Kill.
  Context {n : nat} (H : list bytes → arr n).
  Context (S : list bytes → Prop) (Hinj : inj_on H S).
  Context (B : backend n) {HB : BackendOk B} (b : trie n).
  Implicit Types (s : b_st B) (q : list (obj n)) (t u w : trie n) (o : obj n) (m D : db n).

  Definition doomed m q : Prop :=
    ∃ u, OT u ∈ q ∧ subtrie b u ∧
      ∀ w, subtrie b w → subtrie w u → m !! troot H w = Some (Node 1 (tvar H w)).
  Definition gone s q : Prop := troot H b ∉ locs H q ∧ troot H b ∉ bpend s ∧ b_vis B s !! troot H b = None.
  Definition killed s : Prop := shallow H S (b_vis B s) ∧ b_vis B s !! troot H b = None.

  Lemma locs_sub u w q : OT u ∈ q → subtrie w u → troot H w ∈ locs H q.
  Proof using.
    intros Hu Hw. unfold locs. apply elem_of_list_fmap. exists (OT w). split; [done|].
    apply elem_of_list_join. exists (oobjs (OT u)). split; [by apply elem_of_tobjs|].
    by apply elem_of_list_fmap_1 with (f := oobjs) in Hu.
  Qed.
  Lemma kill_loop fuel q s E : shallow H S (b_vis B s) → shallow H S (bview s) →
    NoDup (locs H q) → (∀ l, l ∈ locs H q → l ∉ bpend s) →
    Forall (opre_ok H S) q → length (locs H q) ≤ fuel →
    doomed (b_vis B s) q ∨ gone s q →
    wp B H S (λ _, True) (remove_loop fuel (oloc H <$> q)) (λ _ s', killed s') E s.
  Proof using Hinj.
    revert q s. induction fuel as [|fuel IH]; intros q s Hs1 Hs2 Hnd Hpd Hpre Hf Hc.
    - destruct q as [|o q]; [|rewrite locs_cons in Hf; simpl in Hf; lia]. cbn. split; [done|].
      destruct Hc as [(u & Hu & _)|(_ & Hp & Hv)]; [by apply elem_of_nil in Hu|].
      unfold killed. rewrite bvis_flush. split; [done|]. by rewrite <- bvis_view.
    - destruct q as [|o q].
      { cbn. split; [done|].
        destruct Hc as [(u & Hu & _)|(_ & Hp & Hv)]; [by apply elem_of_nil in Hu|].
        unfold killed. rewrite bvis_flush. split; [done|]. by rewrite <- bvis_view. }
      rewrite fmap_cons. cbn [remove_loop get_node mbind prog_bind pbind Logic.wp].
      apply Forall_cons in Hpre as [Ho Hpre].
      rewrite locs_cons in Hf, Hnd, Hpd. cbn [length] in Hf. rewrite app_length in Hf.
      apply NoDup_cons in Hnd as [Hni Hnd].
      destruct (b_vis B s !! oloc H o) as [nd|] eqn:Hlk.
      2:{ assert (NoDup (locs H q)) as Hndq by (by apply NoDup_app in Hnd as (_ & _ & ?)).
          apply IH; try done; [|lia|].
          - intros l Hl. apply Hpd. right. apply elem_of_app. by right.
          - destruct Hc as [(u & Hu & Hb & Hw)|(Hb & ? & ?)].
            + left. exists u. split_and!; try done. apply elem_of_cons in Hu as [<-|Hu]; [|done].
              specialize (Hw u Hb ltac:(constructor)). cbn in Hlk. congruence.
            + right. split_and!; try done. rewrite locs_cons in Hb. set_solver. }
      destruct (shallow_at H S Hinj _ o nd Hs1 Ho Hlk) as [Hv Hw0].
      destruct (Nat.eqb_spec (refs nd - 1) 0) as [Hz|Hz].
      + (* deleted *)
        assert (wp B H S (λ _, True) (remove_loop fuel (oloc H <$> q ++ okids o)) (λ _ s', killed s') E
          (b_del B s (oloc H o))) as Hwp.
        { assert (NoDup (locs H (q ++ okids o))) as Hnd'.
          { rewrite locs_app. eapply NoDup_Permutation_proper; [|exact Hnd]. apply Permutation_app_comm. }
          assert (oloc H o ∉ locs H (q ++ okids o)) as Hni'.
          { rewrite locs_app. set_solver. }
          apply IH.
          - rewrite bvis_del. by apply shallow_delete.
          - intros l nd1 Hl. apply bview_del_sub in Hl. by apply Hs2.
          - done.
          - intros l Hl. rewrite bpend_del. apply Hpd. rewrite locs_app in Hl. set_solver.
          - apply Forall_app. split; [done|]. by apply opre_kids.
          - rewrite locs_app, app_length. lia.
          - destruct Hc as [(u & Hu & Hb & Hw)|(Hb & Hp & Hvb)].
            + apply elem_of_cons in Hu as [<-|Hu].
              * destruct (decide (troot H u = troot H b)) as [Heq|Hne].
                -- right. cbn [oloc] in *. unfold gone. rewrite <- Heq. split_and!; [done| |].
                   ++ rewrite bpend_del. apply Hpd. by left.
                   ++ rewrite bvis_del. apply lookup_delete.
                -- left. assert (∃ u', OT u' ∈ okids (OT u) ∧ subtrie b u' ∧ subtrie u' u) as (u' & Hu' & Hb' & Huu).
                   { inversion Hb; subst; [done| |].
                     - exists l. split_and!; [by left|done|]. apply sub_l. constructor.
                     - exists r. split_and!; [by right; left|done|]. apply sub_r. constructor. }
                   exists u'. split_and!; [apply elem_of_app; by right|done|]. intros w Hbw Hwu.
                   rewrite bvis_del, lookup_delete_ne; [apply Hw; [done|by eapply subtrie_trans]|].
                   intros Heq. apply Hni'. rewrite Heq. eapply locs_sub; [apply elem_of_app; right; exact Hu'|done].
              * left. exists u. split_and!; [apply elem_of_app; by left|done|]. intros w Hbw Hwu.
                rewrite bvis_del, lookup_delete_ne; [by apply Hw|]. intros Heq. apply Hni'. rewrite Heq.
                eapply locs_sub; [apply elem_of_app; left; exact Hu|done].
            + right. rewrite locs_cons in Hb. split_and!.
              * rewrite locs_app. set_solver.
              * by rewrite bpend_del.
              * rewrite bvis_del, lookup_delete_None. by right. }
        rewrite fmap_app, <- okids_children, <- Hv in Hwp.
        destruct (var nd) as [c z o1 si bk|lk ld|vd] eqn:Hvn; cbn [children] in Hwp;
          cbn [db_remove mbind prog_bind pbind Logic.wp]; (split; [done|]); try done.
        by rewrite app_nil_r in Hwp.
      + (* one reference less *)
        cbn [db_insert mbind prog_bind pbind Logic.wp]. split; [done|].
        set (nd' := Node (refs nd - 1) (var nd)).
        assert (∀ l, l ≠ oloc H o → l ∉ bpend s → b_vis B (b_put B s (oloc H o) nd') !! l = b_vis B s !! l) as Hkeep.
        { intros l Hne Hl. destruct (bvis_put s (oloc H o) nd') as [->| ->]; [done|].
          rewrite bview_put, lookup_insert_ne by done. by rewrite bvis_view. }
        assert (shallow H S (<[oloc H o := nd']> (bview s))) as Hs3 by (by apply shallow_put).
        assert (NoDup (locs H q)) as Hndq by (by apply NoDup_app in Hnd as (_ & _ & ?)).
        apply IH.
        * destruct (bvis_put s (oloc H o) nd') as [->| ->]; [done|]. by rewrite bview_put.
        * by rewrite bview_put.
        * done.
        * intros l Hl [->|Hl']%bpend_put; [apply Hni, elem_of_app; by right|].
          eapply Hpd; [|exact Hl']. right. apply elem_of_app. by right.
        * done.
        * lia.
        * destruct Hc as [(u & Hu & Hb & Hw)|(Hb & Hp & Hvb)].
          -- left. exists u. apply elem_of_cons in Hu as [<-|Hu].
             { specialize (Hw u Hb ltac:(constructor)). cbn in Hlk. rewrite Hlk in Hw. injection Hw as ->. done. }
             split_and!; try done. intros w Hbw Hwu.
             assert (troot H w ∈ locs H q) as Hin by (by eapply locs_sub).
             rewrite Hkeep; [by apply Hw| |].
             ++ intros Heq. apply Hni. rewrite <- Heq. apply elem_of_app. by right.
             ++ apply Hpd. right. apply elem_of_app. by right.
          -- right. rewrite locs_cons in Hb. split_and!.
             ++ intros Hin. apply Hb. right. apply elem_of_app. by right.
             ++ intros [Heq|?]%bpend_put; [|done]. apply Hb. rewrite Heq. by left.
             ++ rewrite Hkeep; [done| |done]. intros Heq. apply Hb. rewrite Heq. by left.
  Qed.
  Theorem kill t s E : shallow H S (b_vis B s) → b_vis B s = bview s → bpend s = [] → stored H (b_vis B s) t →
    Forall S (tpre H t) → NoDup (tkeys t) → subtrie b t →
    (∀ w, subtrie b w → subtrie w t → b_vis B s !! troot H w = Some (Node 1 (tvar H w))) →
    wp B H S (λ _, True) (remove_prog B s (troot H t)) (λ _ s', killed s') E s.
  Proof using Hinj.
    intros Hs Hvv Hpd Hst Hpre Hnd Hb Hw. unfold remove_prog, remove.
    change [troot H t] with (oloc H <$> [OT t]).
    apply kill_loop; try done.
    - by rewrite <- Hvv.
    - by apply (locs_tree H S Hinj).
    - intros l _. rewrite Hpd. apply not_elem_of_nil.
    - by repeat constructor.
    - pose proof (nodup_size (b_vis B s) (locs H [OT t]) (locs_tree H S Hinj t Hnd Hpre) (locs_stored H _ _ Hst)). lia.
    - left. exists t. split_and!; [by left|done|done].
  Qed.
End Kill.

(** ** Reading through a missing node *)
Section Missing.
  Context {n : nat} (Hn : 0 < n) (B : backend n) (H : list bytes → arr n).
  Context (S : list bytes → Prop) (Hinj : inj_on H S).
  Context {V : Type} (decode : bytes → res V) (max_depth : nat).
  Implicit Types (t b l r : trie n) (k : arr n) (s : b_st B).

  Lemma twf_side l r k : twf (TNode l r) → (k ∈ tkeys l → bit k (tsplit l r) = false) ∧
    (k ∈ tkeys r → bit k (tsplit l r) = true).
  Proof using.
    intros Hwf. pose proof (twf_nodup _ Hwf) as Hnd. rewrite tkeys_node in Hnd.
    apply NoDup_app in Hnd as (_ & Hdis & _).
    assert (∀ e, (k, e) ∈ tleaves (TNode l r) →
      (if bit k (tsplit l r) then tlookup r k else tlookup l k) = Some e) as Hlk.
    { intros e Hin. pose proof (tlookup_complete _ k e Hwf Hin) as Hl. simpl in Hl. by destruct (decide _). }
    split; intros Hk; apply elem_of_tkeys in Hk as Hk'; destruct Hk' as [e He];
      specialize (Hlk e ltac:(cbn [tleaves]; rewrite elem_of_app; auto));
      destruct (bit k (tsplit l r)); try done; apply tlookup_elem in Hlk; exfalso.
    - apply (Hdis k); [done|]. apply elem_of_tkeys. eauto.
    - apply (Hdis k); [|done]. apply elem_of_tkeys. eauto.
  Qed.
  Lemma get_missing fuel d k t b s v : shallow H S (b_vis B s) → Forall S (tpre H t) → twf t →
    subtrie b t → k ∈ tkeys b → b_vis B s !! troot H b = None →
    out B H (get_one_loop decode max_depth fuel k d false (troot H t)) s ≠ ROk (Some v).
  Proof using Hn Hinj.
    intros Hs. revert d t. unfold out. induction fuel as [|fuel IH]; intros d t Hpre Hwf Hb Hk Hno; [done|].
    cbn [get_one_loop]. destruct (max_depth <? d); [done|].
    cbn [mbind prog_bind pbind get_node run].
    destruct (b_vis B s !! troot H t) as [nd|] eqn:Ht; [|done].
    destruct (shallow_at H S Hinj _ (OT t) nd Hs Hpre Ht) as [Hv _].
    inversion Hb as [|? l r Hb'|? l r Hb']; subst; [congruence| |].
    - cbn [ovar tvar] in Hv. rewrite Hv. pose proof Hwf as (Hwl & Hwr & Hlt & _).
      pose proof (tsplit_lt l r Hlt) as Hs8.
      destruct (single_desc Hn k (tmin l) (tsplit l r)) as (m & Hm & Hc); [lia|].
      rewrite Hm. cbn [lift mbind prog_bind pbind]. rewrite Hc. cbn [lift mbind prog_bind pbind].
      destruct (decide _); [|done]. rewrite choose_zero_ok by done. cbn [lift mbind prog_bind pbind].
      rewrite (proj1 (twf_side l r k Hwf)) by (by eapply subtrie_keys). cbn [negb].
      apply IH; try done. cbn [tpre] in Hpre. by apply Forall_cons in Hpre as [_ [? _]%Forall_app].
    - cbn [ovar tvar] in Hv. rewrite Hv. pose proof Hwf as (Hwl & Hwr & Hlt & _).
      pose proof (tsplit_lt l r Hlt) as Hs8.
      destruct (single_desc Hn k (tmin l) (tsplit l r)) as (m & Hm & Hc); [lia|].
      rewrite Hm. cbn [lift mbind prog_bind pbind]. rewrite Hc. cbn [lift mbind prog_bind pbind].
      destruct (decide _); [|done]. rewrite choose_zero_ok by done. cbn [lift mbind prog_bind pbind].
      rewrite (proj2 (twf_side l r k Hwf)) by (by eapply subtrie_keys). cbn [negb].
      apply IH; try done. cbn [tpre] in Hpre. by apply Forall_cons in Hpre as [_ [_ ?]%Forall_app].
  Qed.
End Missing.

(** ** Exactly which insertions are damaging *)
Section Damage.
  Context {n : nat} (Hn : 0 < n) (B : backend n) {HB : BackendOk B} (H : list bytes → arr n).
  Context {V : Type} (enc : V → res bytes) (dec : bytes → res V) (Hcodec : codec_ok enc dec).
  Implicit Types (st : b_st B) (lg L : list (list bytes)) (k r : arr n) (ks : list (arr n)) (vs : list V).
  Implicit Types (M : gmap (arr n) V) (hs : list (arr n * gmap (arr n) V)) (t : trie n) (D : db n).
  Notation Sof L := (λ x, x ∈ L).

  Lemma shallow_keeps L : inj_on H (Sof L) → keeps H (Sof L) no_floor (shallow H (Sof L)).
  Proof using.
    intros Hinj. constructor.
    - intros m o nd ? ? ? ? _ _. by apply shallow_put.
    - intros m o nd ???. by apply (shallow_put_cle H (Sof L) Hinj).
    - intros. apply Nat.le_0_l.
  Qed.

  Lemma zip_fun ks vs k v v' : NoDup ks → length ks = length vs → (k, v) ∈ zip ks vs → (k, v') ∈ zip ks vs → v = v'.
  Proof using.
    intros Hnd Hlen H1 H2. assert (NoDup (zip ks vs).*1) as Hz by (by rewrite fst_zip by (by rewrite Hlen)).
    apply (elem_of_list_to_map_1 (M := gmap (arr n)) _ _ _ Hz) in H1, H2. congruence.
  Qed.
  (** The insertion and the removal of its result, in any history. *)
  Theorem insert_remove_damage st lg hs Dep prev M ks vs r r' M' :
    whist B H enc dec st lg hs → no_collision H (lg ++ hlog B H (insert enc Dep prev ks vs) st) →
    prev_holds hs prev M → benign M ks → out B H (insert enc Dep prev ks vs) st = ROk r →
    (r', M') ∈ hs → regrows M' (updated M ks vs) ks vs →
    let st1 := fin B H (insert enc Dep prev ks vs) st in
    let st2 := fin B H (remove_prog B st1 r) st1 in
    ∃ k v, M' !! k = Some v ∧ ∀ Dep', out B H (get_one dec Dep' r' k) st2 ≠ ROk (Some v).
  Proof using Hn Hcodec HB.
    intros Hh Hc Hp Hb Hout Hin Hreg st1 st2.
    set (L := lg ++ hlog B H (insert enc Dep prev ks vs) st) in *.
    destruct (whist_inv Hn B H enc dec Hcodec L st lg hs Hc Hh) as (hts & D & Hi);
      [intros; apply elem_of_app; by left|].
    destruct (winv_handles _ _ _ _ _ _ _ _ Hc Hi) as [HhD _].
    pose proof (winv_counted _ _ _ _ _ _ _ _ Hi) as (_ & _ & [Hs1 Hdv] & [Hs2 _] & Hcl).
    pose proof (insert_ev Hn B H enc dec Hcodec L st hs D Dep prev M ks vs no_floor (shallow H (Sof L)) Hc HhD
      (dom_cle _ _ Hdv) Hp Hb (shallow_keeps L Hc)) as Hw.
    specialize (Hw ltac:(split_and!; try done; apply cle_refl) ltac:(intros; apply Nat.le_0_l)).
    apply wp_run in Hw; [|intros; apply elem_of_app; by right].
    rewrite Hout in Hw. fold st1 in Hw.
    destruct Hw as (t & P' & piece & Htr & Hst & Hsh & Hev & _ & _ & Hpk & Hkt & Hlen & Hnd & Hz & Hvis & Hpend).
    destruct Htr as (Hr & Ht & Htpre & Hen). cbn [fst snd] in *. subst r.
    rewrite Forall_forall in HhD. destruct (HhD _ Hin) as (t' & Hr' & Ht' & _ & Htpre' & Hen'). cbn [fst snd] in *.
    destruct (regrows_branch enc t t' (updated M ks vs) M' ks vs) as (l0 & r0 & k & v & Hsub & Hsub' & Hkv & Hk); try done.
    { intros k v Hkv. apply (encs_has enc _ (tmap t) k Hen). apply tmap_has. apply Hkt.
      by apply elem_of_zip_l in Hkv. }
    assert (ones H (Sof L) (isnew enc (sort_keys ks) (value_map_of ks vs)) (bview st1, P', [t])) as [_ Hones].
    { eapply (evs_ones H (Sof L) Hc); [|exact Hev|].
      - intros p k0 e0 Hpc [Hk0 _]. apply Hpk; [done|]. by apply elem_of_sort_keys.
      - split; [constructor|]. cbn. by intros u ? ? ?%elem_of_nil. }
    cbn [fst snd] in Hones.
    pose proof (kill H (Sof L) Hc B (TNode l0 r0) t st1 (λ _ _, False)) as Hkill.
    rewrite Hvis in Hkill. specialize (Hkill Hsh eq_refl Hpend Hst Htpre (twf_nodup _ Ht) Hsub).
    assert (∀ w : trie n, subtrie (TNode l0 r0) w → subtrie w t →
      bview st1 !! troot H w = Some (Node 1 (tvar H w))) as Hpath.
    { intros w Hbw Hwt. destruct w as [|lw rw]; [by inversion Hbw|].
      apply (Hones t lw rw); [by left|done|].
      destruct (Hz k v Hkv) as (e & He & Hke). exists k, e. split.
      - split; [apply elem_of_sort_keys; by apply elem_of_zip_l in Hkv|]. exists v. split; [|done].
        destruct (value_map_some Hn ks vs k) as [v' Hv']; [done|by apply elem_of_zip_l in Hkv|].
        rewrite Hv'. apply value_map_elem in Hv'. f_equal. symmetry. by eapply zip_fun.
      - apply (subtrie_trans _ (TNode l0 r0)); [|done].
        apply elem_of_tkeys in Hk as [e' Hk]. apply leaf_subtrie in Hk as Hk1.
        assert (e' = e) as ->; [|done].
        assert (tmap t !! k = Some e ∧ tmap t !! k = Some e') as [? ?]; [|congruence].
        split; apply tmap_lookup; try done.
        + eapply subtrie_leaves; [exact Hke|]. by left.
        + eapply subtrie_leaves; [exact Hsub|done]. }
    specialize (Hkill Hpath). apply wp_run in Hkill;
      [|unfold remove_prog, remove; rewrite remove_no_hash; by intros x ?%elem_of_nil].
    fold st2 in Hkill. destruct (out B H (remove_prog B st1 (troot H t)) st1); try done.
    destruct Hkill as [Hsh2 Hgone].
    assert (has_key M' k) as [v' Hv'].
    { apply (encs_has enc _ (tmap t') k Hen'). apply tmap_has. by eapply subtrie_keys. }
    exists k, v'. split; [done|]. intros Dep'. subst r'. unfold get_one.
    by apply (get_missing Hn B H (Sof L) Hc dec Dep' _ _ k t' (TNode l0 r0)).
  Qed.

  (** C20: removing the root that the insertion returned harms no other root
      if and only if the insertion re-created no branch of another root. *)
  Theorem insert_remove_exact st lg hs Dep prev M ks vs r :
    whist B H enc dec st lg hs → no_collision H (lg ++ hlog B H (insert enc Dep prev ks vs) st) →
    prev_holds hs prev M → benign M ks → out B H (insert enc Dep prev ks vs) st = ROk r →
    let st1 := fin B H (insert enc Dep prev ks vs) st in
    let st2 := fin B H (remove_prog B st1 r) st1 in
    (∀ r' M', (r', M') ∈ hs → holds B H dec st2 r' M') ↔ fresh_branches hs M ks vs.
  Proof using Hn Hcodec HB.
    intros Hh Hc Hp Hb Hout st1 st2. split.
    - intros Hall r' M' Hin Hreg.
      destruct (insert_remove_damage st lg hs Dep prev M ks vs r r' M') as (k & v & Hv & Hget); try done.
      apply (Hget (8 * n + 1)). fold st1 st2. rewrite (Hall r' M' Hin _ k) by lia. by rewrite Hv.
    - intros Hf r' M' Hin.
      assert (whist B H enc dec st2 (lg ++ hlog B H (insert enc Dep prev ks vs) st) hs) as Hh2.
      { eapply (whist_remove B H enc dec st1 _ ((r, updated M ks vs) :: hs) r (updated M ks vs)); [by apply whist_insert|done|].
        apply run_in_states. }
      eapply (weak_serves Hn B H enc dec Hcodec); [exact Hh2|done|done].
  Qed.
End Damage.

(** ** A data node counted once too often *)
Section Leak.
  Context {n : nat} (H : list bytes → arr n).
  Context (S : list bytes → Prop) (Hinj : inj_on H S).
  Context (k : arr n) (e : bytes) (Hpre : Forall S (tpre H (TLeaf k e))).
  Implicit Types (m D : db n) (u t : trie n).
  Notation d := (dloc H k e).
  Notation lf := (lloc H k e).

  Definition leak m : Prop := 1 ≤ nrefs m d ∧ (is_Some (m !! lf) → 2 ≤ nrefs m d).

  Lemma pre_d : opre_ok H S (OD k e).
  Proof using Hpre. apply (osub_pre H S _ (TLeaf k e)); [constructor|done]. Qed.
  Lemma put_other m o nd : opre_ok H S o → o ≠ OD k e → nrefs (<[oloc H o := nd]> m) d = nrefs m d.
  Proof using Hinj Hpre.
    intros Ho Hne. unfold nrefs. rewrite lookup_insert_ne; [done|]. intros Heq. apply Hne.
    change d with (oloc H (OD k e)) in Heq. apply (oloc_inj H S Hinj) in Heq; [done|done|apply pre_d].
  Qed.
  Lemma leak_put m o nd : leak m → opre_ok H S o → o ≠ OD k e → (o = OT (TLeaf k e) → is_Some (m !! lf)) →
    leak (<[oloc H o := nd]> m).
  Proof using Hinj Hpre.
    intros [H1 H2] Ho Hne Hlf. split; rewrite put_other by done; [done|]. intros Hs. apply H2.
    destruct (decide (oloc H o = lf)) as [Heq|Hno].
    - apply Hlf. change lf with (oloc H (OT (TLeaf k e))) in Heq. by apply (oloc_inj H S Hinj) in Heq.
    - by rewrite lookup_insert_ne in Hs.
  Qed.

  Section Ev.
    Context (fl : arr n → nat) (Hfl : 1 ≤ fl d).
    Context (isnew : arr n → bytes → Prop) (piece : trie n → Prop) (dup : arr n → bytes → Prop).
    Implicit Types (x y : ist (n := n)).
    Notation ev := (ev H S fl isnew piece dup).

    Lemma ev_data m P (k0 : arr n) (e0 : bytes) rd rl : S (data_in k0 e0) → S (leaf_in k0 (dloc H k0 e0)) →
      bumped fl m P (dloc H k0 e0) rd →
      let m' := <[lloc H k0 e0 := Node rl (VLeaf k0 (dloc H k0 e0))]> (<[dloc H k0 e0 := Node rd (VData e0)]> m) in
      (k0 = k ∧ e0 = e ∧ 2 ≤ nrefs m' d) ∨ OD k0 e0 ≠ OD k e ∧ nrefs m' d = nrefs m d ∧ m' !! lf = m !! lf.
    Proof using Hinj Hpre Hfl.
      intros Hd Hl [_ Hb]. cbn zeta.
      assert (opre_ok H S (OT (TLeaf k0 e0)) ∧ opre_ok H S (OD k0 e0)) as [Hol Hod] by (by split; repeat constructor).
      pose proof (put_other (<[dloc H k0 e0 := Node rd (VData e0)]> m) (OT (TLeaf k0 e0))
        (Node rl (VLeaf k0 (dloc H k0 e0))) Hol ltac:(done)) as Hpo. cbn [oloc troot] in Hpo. rewrite Hpo. clear Hpo.
      destruct (decide (k0 = k ∧ e0 = e)) as [[-> ->]|Hne].
      - left. split_and!; [done|done|]. unfold nrefs. rewrite lookup_insert. simpl. lia.
      - right. assert (OD k0 e0 ≠ OD k e) as Hne' by (intros [= -> ->]; by apply Hne). split_and!; [done| |].
        + by apply (put_other m (OD k0 e0)).
        + rewrite lookup_insert_ne; [rewrite lookup_insert_ne; [done|]|].
          * intros Heq. change (dloc H k0 e0) with (oloc H (OD k0 e0)) in Heq.
            change lf with (oloc H (OT (TLeaf k e))) in Heq. by apply (oloc_inj H S Hinj) in Heq.
          * intros Heq. change (oloc H (OT (TLeaf k0 e0)) = oloc H (OT (TLeaf k e))) in Heq.
            apply (oloc_inj H S Hinj) in Heq; [|done|done]. injection Heq as -> ->. by apply Hne.
    Qed.
    Lemma ev_leak x y : ev x y → leak x.1.1 → Forall (λ u, Forall S (tpre H u)) x.2 →
      leak y.1.1 ∧ Forall (λ u, Forall S (tpre H u)) y.2.
    Proof using Hinj Hpre Hfl.
      intros Hev Hlk Hp.
      inversion Hev as [m P ts k0 e0 rd rl Hnew Hd Hl Hbd Hbl|m P ts p rf Hpc Hst Hw Hpp Hb
        |m P ts k0 e0 rf Hnew Hdup Hst Hpp|m P ts l r ts' Hperm Hlt Hb]; subst; cbn [fst snd] in *.
      - split; [|constructor; [by repeat constructor|done]].
        destruct (ev_data m P k0 e0 rd rl Hd Hl Hbd) as [(_ & _ & Hge)|(_ & Heq & Hlf)].
        + split; [lia|done].
        + destruct Hlk as [H1 H2]. split; [by rewrite Heq|]. rewrite Heq, Hlf. done.
      - split; [|by constructor]. change (troot H p) with (oloc H (OT p)). apply leak_put; try done.
        intros [= ->]. destruct Hst as [Hst _]. apply has_lookup in Hst as [? ->]. eauto.
      - split; [|done]. change (lloc H k0 e0) with (oloc H (OT (TLeaf k0 e0))). apply leak_put; try done.
        intros [= -> ->]. destruct Hst as [Hst _]. apply has_lookup in Hst as [? ->]. eauto.
      - rewrite Hperm in Hp. apply Forall_cons in Hp as [Hpl Hp]. apply Forall_cons in Hp as [Hpr Hp].
        assert (Forall S (tpre H (TNode l r))) as Hlr.
        { cbn [tpre]. constructor; [done|]. by apply Forall_app. }
        split; [|by constructor]. change (troot H (TNode l r)) with (oloc H (OT (TNode l r))). by apply leak_put.
    Qed.
    Lemma evs_leak x y : rtc ev x y → leak x.1.1 → Forall (λ u, Forall S (tpre H u)) x.2 → leak y.1.1.
    Proof using Hinj Hpre Hfl.
      induction 1 as [|x y z Hev _ IH]; [done|]. intros Hlk Hp. destruct (ev_leak x y Hev Hlk Hp). by apply IH.
    Qed.

    (** The insertion that counts the data once too often. *)
    Context (Hold : ∀ p, piece p → k ∉ tkeys p).
    Definition twice x : Prop := ∀ u, u ∈ x.2 → subtrie (TLeaf k e) u → 2 ≤ nrefs x.1.1 d.
    Lemma ev_twice x y : ev x y → twice x → Forall (λ u, Forall S (tpre H u)) x.2 →
      twice y ∧ Forall (λ u, Forall S (tpre H u)) y.2.
    Proof using Hinj Hpre Hfl Hold.
      intros Hev Htw Hp.
      inversion Hev as [m P ts k0 e0 rd rl Hnew Hd Hl Hbd Hbl|m P ts p rf Hpc Hst Hw Hpp Hb
        |m P ts k0 e0 rf Hnew Hdup Hst Hpp|m P ts l r ts' Hperm Hlt Hb]; subst; unfold twice in *; cbn [fst snd] in *.
      - split; [|constructor; [by repeat constructor|done]].
        destruct (ev_data m P k0 e0 rd rl Hd Hl Hbd) as [(_ & _ & Hge)|(Hne & -> & _)]; [done|].
        intros u [->|Hu]%elem_of_cons Hs; [|by apply (Htw u)]. inversion Hs; subst. done.
      - split; [|by constructor]. intros u Hu Hs. change (troot H p) with (oloc H (OT p)). rewrite put_other by done.
        apply elem_of_cons in Hu as [->|Hu]; [|by apply (Htw u)]. exfalso. apply (Hold p Hpc).
        eapply subtrie_keys; [exact Hs|]. by left.
      - split; [|done]. intros u Hu Hs. change (lloc H k0 e0) with (oloc H (OT (TLeaf k0 e0))).
        rewrite put_other by done. by apply (Htw u).
      - rewrite Hperm in Hp. apply Forall_cons in Hp as [Hpl Hp]. apply Forall_cons in Hp as [Hpr Hp].
        assert (Forall S (tpre H (TNode l r))) as Hlr.
        { cbn [tpre]. constructor; [done|]. by apply Forall_app. }
        split; [|by constructor]. intros u Hu Hs. change (troot H (TNode l r)) with (oloc H (OT (TNode l r))).
        rewrite put_other by done. setoid_rewrite Hperm in Htw.
        apply elem_of_cons in Hu as [->|Hu]; [|by apply (Htw u); [by do 2 right|]].
        inversion Hs; subst; [apply (Htw l)|apply (Htw r)]; try done; [left|right; left].
    Qed.
    Lemma evs_twice x y : rtc ev x y → twice x → Forall (λ u, Forall S (tpre H u)) x.2 → twice y.
    Proof using Hinj Hpre Hfl Hold.
      induction 1 as [|x y z Hev _ IH]; [done|]. intros Htw Hp. destruct (ev_twice x y Hev Htw Hp). by apply IH.
    Qed.
  End Ev.

  (** Removals *)
  Context (B : backend n) {HB : BackendOk B}.
  Implicit Types (s : b_st B) (q : list (obj n)) (o : obj n).
  (** One more for the leaf and one for a pending visit. *)
  Definition leakq m q : Prop :=
    1 ≤ nrefs m d ∧ (is_Some (m !! lf) → 2 ≤ nrefs m d) ∧ (OD k e ∈ q → 2 ≤ nrefs m d) ∧
    (OD k e ∈ q → is_Some (m !! lf) → 3 ≤ nrefs m d).
  Lemma leak_loop fuel q s E : shallow H S (b_vis B s) → shallow H S (bview s) →
    NoDup (locs H q) → (∀ l, l ∈ locs H q → l ∉ bpend s) →
    Forall (opre_ok H S) q → length (locs H q) ≤ fuel →
    leakq (bview s) q →
    wp B H S (λ _, True) (remove_loop fuel (oloc H <$> q)) (λ _ s', leak (b_vis B s') ∧ b_vis B s' = bview s' ∧ bpend s' = []) E s.
  Proof using Hinj Hpre.
    assert (∀ (q : list (obj n)) (s : b_st B), leakq (bview s) q → leak (b_vis B (b_flush B s)) ∧
      b_vis B (b_flush B s) = bview (b_flush B s) ∧ bpend (b_flush B s) = []) as Hend.
    { intros q0 s0 (H1 & H2 & _). rewrite bvis_flush, bview_flush, bpend_flush. split_and!; try done. }
    revert q s. induction fuel as [|fuel IH]; intros q s Hs1 Hs2 Hnd Hpd Hpres Hf Hc.
    - destruct q as [|o q]; [|rewrite locs_cons in Hf; simpl in Hf; lia]. cbn. split; [done|]. by apply (Hend []).
    - destruct q as [|o q]; [cbn; split; [done|]; by apply (Hend [])|].
      rewrite fmap_cons. cbn [remove_loop get_node mbind prog_bind pbind Logic.wp].
      apply Forall_cons in Hpres as [Ho Hpres].
      rewrite locs_cons in Hf, Hnd, Hpd. cbn [length] in Hf. rewrite app_length in Hf.
      apply NoDup_cons in Hnd as [Hni Hnd].
      assert (NoDup (locs H q)) as Hndq by (by apply NoDup_app in Hnd as (_ & _ & ?)).
      assert (oloc H o ∉ bpend s) as Hop by (apply Hpd; by left).
      assert (o ∉ q) as Hoq.
      { intros Hin. apply Hni. apply elem_of_app. right. unfold locs. apply elem_of_list_fmap. exists o. split; [done|].
        apply elem_of_list_join. exists (oobjs o). split; [rewrite oobjs_unfold; by left|].
        by apply elem_of_list_fmap_1 with (f := oobjs) in Hin. }
      destruct Hc as (H1 & H2 & H3 & H4).
      destruct (b_vis B s !! oloc H o) as [nd|] eqn:Hlk.
      2:{ apply IH; try done; [|lia|].
          - intros l Hl. apply Hpd. right. apply elem_of_app. by right.
          - split_and!; [done|done| |].
            + intros Hin. apply H3. by right.
            + intros Hin. apply H4. by right. }
      destruct (shallow_at H S Hinj _ o nd Hs1 Ho Hlk) as [Hv Hw0].
      rewrite bvis_view in Hlk by done.
      destruct (Nat.eqb_spec (refs nd - 1) 0) as [Hz|Hz].
      + (* deleted *)
        assert (o ≠ OD k e) as Hod.
        { intros ->. cbn [oloc] in Hlk. specialize (H3 ltac:(by left)). unfold nrefs in H3. rewrite Hlk in H3. lia. }
        assert (wp B H S (λ _, True) (remove_loop fuel (oloc H <$> q ++ okids o))
          (λ _ s', leak (b_vis B s') ∧ b_vis B s' = bview s' ∧ bpend s' = []) E
          (b_del B s (oloc H o))) as Hwp.
        { assert (NoDup (locs H (q ++ okids o))) as Hnd'.
          { rewrite locs_app. eapply NoDup_Permutation_proper; [|exact Hnd]. apply Permutation_app_comm. }
          apply IH.
          - rewrite bvis_del. by apply shallow_delete.
          - intros l nd1 Hl. apply bview_del_sub in Hl. by apply Hs2.
          - done.
          - intros l Hl. rewrite bpend_del. apply Hpd. right. rewrite locs_app, elem_of_app in Hl. apply elem_of_app. tauto.
          - apply Forall_app. split; [done|]. by apply opre_kids.
          - rewrite locs_app, app_length. lia.
          - rewrite bview_del by done.
            assert (nrefs (delete (oloc H o) (bview s)) d = nrefs (bview s) d) as Hnr.
            { unfold nrefs. rewrite lookup_delete_ne; [done|]. intros Heq.
              change d with (oloc H (OD k e)) in Heq. apply (oloc_inj H S Hinj) in Heq; [done|done|apply pre_d]. }
            unfold leakq. rewrite Hnr.
            destruct (decide (oloc H o = lf)) as [Heq|Hne].
            + change lf with (oloc H (OT (TLeaf k e))) in Heq. apply (oloc_inj H S Hinj) in Heq; [|done|done]. subst o.
              cbn [oloc troot] in *. assert (2 ≤ nrefs (bview s) d) as Hge by (apply H2; eauto).
              rewrite lookup_delete. split_and!; try done; try by intros ? [? ?].
            + rewrite lookup_delete_ne by done.
              assert (OD k e ∈ q ++ okids o → OD k e ∈ o :: q) as Hin.
              { rewrite elem_of_app. intros [?|Hk]; [by right|]. exfalso. apply Hne.
                destruct o as [[k1 e1|l1 r1]|k1 e1]; cbn in Hk.
                - apply elem_of_list_singleton in Hk. injection Hk as <- <-. done.
                - apply elem_of_cons in Hk as [?|Hk]; [done|]. by apply elem_of_list_singleton in Hk.
                - by apply elem_of_nil in Hk. }
              split_and!; auto. }
        rewrite fmap_app, <- okids_children, <- Hv in Hwp.
        destruct (var nd) as [c z o1 si bk|lk ld|vd] eqn:Hvn; cbn [children] in Hwp;
          cbn [db_remove mbind prog_bind pbind Logic.wp]; (split; [done|]); try done.
        by rewrite app_nil_r in Hwp.
      + (* one reference less *)
        cbn [db_insert mbind prog_bind pbind Logic.wp]. split; [done|].
        set (nd' := Node (refs nd - 1) (var nd)).
        assert (shallow H S (<[oloc H o := nd']> (bview s))) as Hs3 by (by apply shallow_put).
        apply IH.
        * destruct (bvis_put s (oloc H o) nd') as [->| ->]; [done|]. by rewrite bview_put.
        * by rewrite bview_put.
        * done.
        * intros l Hl [->|Hl']%bpend_put; [apply Hni, elem_of_app; by right|].
          eapply Hpd; [|exact Hl']. right. apply elem_of_app. by right.
        * done.
        * lia.
        * rewrite bview_put.
          assert (is_Some (<[oloc H o := nd']> (bview s) !! lf) → is_Some (bview s !! lf)) as Hlfs.
          { destruct (decide (oloc H o = lf)) as [Heq|Hne]; [|by rewrite lookup_insert_ne].
            intros _. rewrite <- Heq, Hlk. eauto. }
          destruct (decide (oloc H o = d)) as [Heq|Hne].
          -- change d with (oloc H (OD k e)) in Heq. apply (oloc_inj H S Hinj) in Heq; [|done|apply pre_d]. subst o.
             cbn [oloc] in *.
             assert (nrefs (<[d := nd']> (bview s)) d = nrefs (bview s) d - 1) as Hnr.
             { unfold nrefs. rewrite lookup_insert, Hlk. done. }
             unfold leakq. rewrite Hnr. specialize (H3 ltac:(by left)). specialize (H4 ltac:(by left)).
             split_and!; try done; [lia|]. intros Hs. specialize (H4 (Hlfs Hs)). lia.
          -- assert (nrefs (<[oloc H o := nd']> (bview s)) d = nrefs (bview s) d) as Hnr.
             { unfold nrefs. by rewrite lookup_insert_ne. }
             unfold leakq. rewrite Hnr. split_and!; [done|auto| |].
             ++ intros Hin. apply H3. by right.
             ++ intros Hin Hs. apply H4; [by right|auto].
  Qed.
  Theorem remove_leak t s E : shallow H S (b_vis B s) → b_vis B s = bview s → bpend s = [] → stored H (b_vis B s) t →
    Forall S (tpre H t) → NoDup (tkeys t) → leak (b_vis B s) →
    wp B H S (λ _, True) (remove_prog B s (troot H t)) (λ _ s', leak (b_vis B s') ∧ b_vis B s' = bview s' ∧ bpend s' = []) E s.
  Proof using Hinj Hpre.
    intros Hs Hvv Hpd Hst Hpret Hnd [H1 H2]. unfold remove_prog, remove.
    change [troot H t] with (oloc H <$> [OT t]).
    apply leak_loop; try done.
    - by rewrite <- Hvv.
    - by apply (locs_tree H S Hinj).
    - intros l _. rewrite Hpd. apply not_elem_of_nil.
    - by repeat constructor.
    - pose proof (nodup_size (b_vis B s) (locs H [OT t]) (locs_tree H S Hinj t Hnd Hpret) (locs_stored H _ _ Hst)). lia.
    - rewrite <- Hvv. split_and!; try done; intros Hin; by apply elem_of_list_singleton in Hin.
  Qed.
End Leak.

(** ** Exactly which histories leak *)
Section Leaks.
  Context {n : nat} (Hn : 0 < n) (B : backend n) {HB : BackendOk B} (H : list bytes → arr n).
  Context {V : Type} (enc : V → res bytes) (dec : bytes → res V) (Hcodec : codec_ok enc dec).
  Implicit Types (st : b_st B) (lg L : list (list bytes)) (k r : arr n) (ks : list (arr n)) (vs : list V).
  Implicit Types (M : gmap (arr n) V) (hs : list (arr n * gmap (arr n) V)) (t : trie n) (D : db n) (F : Prop).
  Notation Sof L := (λ x, x ∈ L).

  Lemma all_or_some {A} (P Q : A → Prop) (xs : list A) : (∀ x, x ∈ xs → P x ∨ Q x) →
    (∀ x, x ∈ xs → P x) ∨ ∃ x, x ∈ xs ∧ Q x.
  Proof using.
    induction xs as [|x xs IH]; intros Hx; [left; by intros ? ?%elem_of_nil|].
    destruct (Hx x) as [Hp|Hq]; [by left| |right; exists x; split; [by left|done]].
    destruct IH as [Ha|(y & ? & ?)]; [intros; apply Hx; by right| |right; exists y; split; [by right|done]].
    left. intros y [->|Hy]%elem_of_cons; auto.
  Qed.
  (** Pairs are compared through their encodings. *)
  Lemma fresh_or_not hs ks vs : (∀ r M k v, (r, M) ∈ hs → M !! k = Some v → ∃ e, enc v = Ok e) →
    (∀ k v, (k, v) ∈ zip ks vs → ∃ e, enc v = Ok e) →
    fresh_pairs hs ks vs ∨ ∃ r M k v, (r, M) ∈ hs ∧ (k, v) ∈ zip ks vs ∧ M !! k = Some v.
  Proof using Hcodec.
    intros Hhs Hvs.
    destruct (all_or_some (λ h, ∀ kv, kv ∈ zip ks vs → h.2 !! kv.1 ≠ Some kv.2)
      (λ h, ∃ kv, kv ∈ zip ks vs ∧ h.2 !! kv.1 = Some kv.2) hs) as [Ha|([r M] & Hin & [k v] & Hkv & Hl)].
    - intros [r M] Hin. apply all_or_some. intros [k v] Hkv. cbn [fst snd].
      destruct (Hvs k v Hkv) as [e He].
      destruct (M !! k) as [v'|] eqn:Hl; [|by left].
      destruct (Hhs r M k v' Hin Hl) as [e' He'].
      destruct (decide (e = e')) as [<-|Hne]; [right|left; intros [= ->]; congruence].
      f_equal. apply (dec_enc _ _ Hcodec) in He, He'. congruence.
    - left. intros r M k v Hin Hkv. exact (Ha (r, M) Hin (k, v) Hkv).
    - right. exists r, M, k, v. done.
  Qed.

  Lemma leak_keeps L D k (e : bytes) : inj_on H (Sof L) → shallow H (Sof L) D →
    keeps H (Sof L) (λ l, if decide (l = dloc H k e) then nrefs D l `max` 1 else nrefs D l)
      (λ m, wpr H (Sof L) D m ∧ 1 ≤ nrefs m (dloc H k e)).
  Proof using Hn.
    intros Hinj HD. destruct (wpr_keeps H (Sof L) Hinj D HD) as [K1 K2 K3]. constructor.
    - intros m o nd [Hw Hge] Ho Hwf Hv Hbl Hfl. split.
      + apply K1; try done. destruct (decide _); lia.
      + unfold nrefs. destruct (decide (oloc H o = dloc H k e)) as [Heq|Hne].
        * rewrite Heq, lookup_insert. lia.
        * by rewrite lookup_insert_ne.
    - intros m o nd [Hw _]. by apply K2.
    - intros m l [Hw Hge]. specialize (K3 m l Hw). destruct (decide _) as [->|]; lia.
  Qed.
  Definition leaks L st : Prop :=
    ∃ k e, Forall (Sof L) (tpre H (TLeaf k e)) ∧ leak H k e (b_vis B st).

  Lemma insert_leaks L st hs hts D Dep prev M ks vs r :
    inj_on H (Sof L) → winv B H enc L st hs hts D → b_vis B st = bview st → leaks L st →
    prev_holds hs prev M → benign M ks → fresh_branches hs M ks vs →
    (∀ x, x ∈ hlog B H (insert enc Dep prev ks vs) st → x ∈ L) →
    out B H (insert enc Dep prev ks vs) st = ROk r →
    leaks L (fin B H (insert enc Dep prev ks vs) st).
  Proof using Hn Hcodec HB.
    intros Hinj Hi Hvv (k & e & Hpre & Hlk) Hp Hb Hf Hlog Hout.
    assert (shallow H (Sof L) D) as HsD by (by eapply winv_shallow).
    pose proof (winv_counted _ _ _ _ _ _ _ _ Hi) as (_ & _ & Hw1 & Hw2 & _).
    pose proof (insert_weak_gen Hn B H enc dec Hcodec L st hs hts D Dep prev M ks vs _ _ Hinj Hi Hp Hb Hf
      (leak_keeps L D k e Hinj HsD)) as Hw.
    specialize (Hw ltac:(by intros m [? _])).
    assert (∀ l, nrefs D l ≤ if decide (l = dloc H k e) then nrefs D l `max` 1 else nrefs D l) as Hle
      by (intros l; destruct (decide _); lia).
    specialize (Hw Hle). clear Hle.
    assert (∀ l0 r0 : trie n, branch_in (troot H l0) (troot H r0) ∈ L → D !! troot H (TNode l0 r0) = None →
      (if decide (troot H (TNode l0 r0) = dloc H k e) then nrefs D (troot H (TNode l0 r0)) `max` 1
       else nrefs D (troot H (TNode l0 r0))) ≤ 1) as Hle.
    { intros l0 r0 _ Hno. assert (nrefs D (troot H (TNode l0 r0)) = 0) as -> by (unfold nrefs; by rewrite Hno).
      destruct (decide _); lia. }
    specialize (Hw Hle). clear Hle. destruct Hlk as [Hl1 Hl2].
    specialize (Hw (conj Hw1 Hl1)). rewrite <- Hvv in Hw. specialize (Hw (conj Hw1 Hl1)).
    apply wp_run in Hw; [|done].
    rewrite Hout in Hw. destruct Hw as (t & D' & P' & piece & _ & _ & Hev & _ & _ & _ & _ & Hv' & _).
    exists k, e. split; [done|]. rewrite Hv'.
    eapply (evs_leak H (Sof L) Hinj k e Hpre) in Hev; [exact Hev| |by split|constructor].
    rewrite decide_True by done. lia.
  Qed.
  Lemma insert_starts_leak L st hs hts D Dep prev M ks vs r r' M' k v :
    inj_on H (Sof L) → winv B H enc L st hs hts D →
    prev_holds hs prev M → benign M ks → fresh_branches hs M ks vs →
    (∀ x, x ∈ hlog B H (insert enc Dep prev ks vs) st → x ∈ L) →
    out B H (insert enc Dep prev ks vs) st = ROk r →
    (r', M') ∈ hs → (k, v) ∈ zip ks vs → M' !! k = Some v →
    leaks L (fin B H (insert enc Dep prev ks vs) st).
  Proof using Hn Hcodec HB.
    intros Hinj Hi Hp Hb Hf Hlog Hout Hin Hkv Hl.
    assert (shallow H (Sof L) D) as HsD by (by eapply winv_shallow).
    destruct (winv_handles _ _ _ _ _ _ _ _ Hinj Hi) as [HhD _].
    pose proof (winv_counted _ _ _ _ _ _ _ _ Hi) as ((_ & _ & Hcn) & _ & Hw1 & Hw2 & _).
    pose proof (insert_ev Hn B H enc dec Hcodec L st hs D Dep prev M ks vs (nrefs D) (wpr H (Sof L) D) Hinj HhD
      (dom_cle _ _ (proj2 Hw1)) Hp Hb (wpr_keeps H (Sof L) Hinj D HsD) (winv_J _ _ _ _ _ _ _ _ Hi)) as Hw.
    specialize (Hw ltac:(intros t l0 r0 Ht He Hsub Hnew Hpre; unfold nrefs;
      rewrite (branch_fresh B H enc dec Hcodec L st hs hts D M ks vs t Hinj Hi Hf Ht He l0 r0 Hsub Hnew Hpre); lia)).
    apply wp_run in Hw; [|done].
    rewrite Hout in Hw.
    destruct Hw as (t & P' & piece & Htr & _ & _ & Hev & _ & _ & Hpk & _ & _ & _ & Hz & Hvis & _).
    destruct Htr as (_ & _ & Htpre & _). cbn [fst snd] in *.
    destruct (Hz k v Hkv) as (e & He & Hsub).
    assert (Forall (Sof L) (tpre H (TLeaf k e))) as Hpre by (by eapply subtrie_pre).
    exists k, e. split; [done|]. rewrite Hvis.
    assert (2 ≤ nrefs (bview (fin B H (insert enc Dep prev ks vs) st)) (dloc H k e)) as Hge.
    { eapply (evs_twice H (Sof L) Hinj k e Hpre (nrefs D)) in Hev; [|..].
      - apply (Hev t); [by left|done].
      - rewrite Forall_forall in HhD. destruct (HhD _ Hin) as (t' & _ & Ht' & Hst' & _ & Hen'). cbn [fst snd] in *.
        assert (subtrie (TLeaf k e) t') as Hsub'.
        { apply leaf_subtrie. apply tmap_lookup; [done|]. specialize (Hen' k). rewrite Hl in Hen'.
          inversion Hen' as [v' e' Hv' Heq1 Heq2|]; subst. congruence. }
        destruct (osub_stored H D (OD k e) t' Hsub' Hst') as [nd Hnd]. cbn [oloc] in Hnd.
        unfold nrefs. rewrite Hnd. destruct (Hcn _ _ Hnd) as [Hle _].
        assert (0 < pointers D (dloc H k e)); [|lia]. apply pointers_pos.
        destruct (subtrie_stored H D _ _ Hsub' Hst') as [Hlf _]. apply has_lookup in Hlf as [rf Hlf].
        eexists _, _. split; [exact Hlf|]. by left.
      - intros p Hpc. apply Hpk; [done|]. by apply elem_of_zip_l in Hkv.
      - by intros u ?%elem_of_nil.
      - constructor. }
    split; [lia|done].
  Qed.
  Lemma insert_encodes L st hs hts D Dep prev M ks vs r :
    inj_on H (Sof L) → winv B H enc L st hs hts D → prev_holds hs prev M → benign M ks →
    (∀ x, x ∈ hlog B H (insert enc Dep prev ks vs) st → x ∈ L) →
    out B H (insert enc Dep prev ks vs) st = ROk r → ∀ k v, (k, v) ∈ zip ks vs → ∃ e, enc v = Ok e.
  Proof using Hn Hcodec HB.
    intros Hinj Hi Hp Hb Hlog Hout k v Hkv.
    destruct (winv_handles _ _ _ _ _ _ _ _ Hinj Hi) as [HhD _].
    pose proof (winv_counted _ _ _ _ _ _ _ _ Hi) as (_ & _ & [Hs1 Hdv] & [Hs2 _] & Hcl).
    pose proof (insert_ev Hn B H enc dec Hcodec L st hs D Dep prev M ks vs no_floor (shallow H (Sof L)) Hinj HhD
      (dom_cle _ _ Hdv) Hp Hb (shallow_keeps H L Hinj)) as Hw.
    specialize (Hw ltac:(split_and!; try done; apply cle_refl) ltac:(intros; apply Nat.le_0_l)).
    apply wp_run in Hw; [|done]. rewrite Hout in Hw.
    destruct Hw as (t & P' & piece & _ & _ & _ & _ & _ & _ & _ & _ & _ & _ & Hz & _).
    destruct (Hz k v Hkv) as (e & He & _). eauto.
  Qed.

  Lemma shist_whist st lg hs F : shist B H enc dec st lg hs F → whist B H enc dec st lg hs.
  Proof using.
    induction 1 as [|st lg hs F Dep prev M ks vs r Hh IH Hp Hb Hf Hout|st lg hs F r M hs' Hh IH Hp
      |st lg hs F c Hh IH Hsame].
    - constructor.
    - by eapply whist_insert.
    - eapply whist_remove; [done|done|]. apply run_in_states.
    - by apply whist_same.
  Qed.
  Lemma shist_rhist st lg hs F : shist B H enc dec st lg hs F → F → rhist B H enc dec st lg hs.
  Proof using.
    induction 1 as [|st lg hs F Dep prev M ks vs r Hh IH Hp Hb Hf Hout|st lg hs F r M hs' Hh IH Hp
      |st lg hs F c Hh IH Hsame].
    - constructor.
    - intros [? ?]. eapply rhist_insert; eauto.
    - intros ?. eapply rhist_remove; eauto.
    - intros ?. apply rhist_same; auto.
  Qed.

  Lemma shist_leaks L st lg hs F : inj_on H (Sof L) → shist B H enc dec st lg hs F → (∀ x, x ∈ lg → x ∈ L) →
    (F ∨ leaks L st) ∧ b_vis B st = bview st ∧ bpend st = [].
  Proof using Hn Hcodec HB.
    intros Hinj Hh.
    induction Hh as [|st lg hs F Dep prev M ks vs r Hh IH Hp Hb Hf Hout|st lg hs F r M hs' Hh IH Hp
      |st lg hs F c Hh IH Hsame]; intros Hlg.
    - split_and!; [by left|by rewrite bvis_init, bview_init|apply bpend_init].
    - destruct IH as (Hor & Hvv & Hpd); [intros; apply Hlg, elem_of_app; by left|].
      assert (∀ x, x ∈ hlog B H (insert enc Dep prev ks vs) st → x ∈ L) as Hlog
        by (intros; apply Hlg, elem_of_app; by right).
      destruct (whist_inv Hn B H enc dec Hcodec L st lg hs Hinj (shist_whist _ _ _ _ Hh)) as (hts & D & Hi);
        [intros; apply Hlg, elem_of_app; by left|].
      assert (b_vis B (fin B H (insert enc Dep prev ks vs) st) = bview (fin B H (insert enc Dep prev ks vs) st) ∧
        bpend (fin B H (insert enc Dep prev ks vs) st) = []) as [? ?].
      { pose proof (insert_weak Hn B H enc dec Hcodec L st hs hts D Dep prev M ks vs Hinj Hi Hp Hb Hf) as Hw.
        apply wp_run in Hw; [|done]. rewrite Hout in Hw. by destruct Hw as (_ & ? & ?). }
      split; [|done]. destruct Hor as [HF|Hlk]; [|right; by eapply insert_leaks].
      destruct (fresh_or_not hs ks vs) as [Hfr|(r' & M' & k & v & Hin & Hkv & Hl)].
      + intros r' M' k v Hin Hl. destruct (winv_handles _ _ _ _ _ _ _ _ Hinj Hi) as [HhD _].
        rewrite Forall_forall in HhD. destruct (HhD _ Hin) as (t' & _ & _ & _ & _ & Hen'). cbn [fst snd] in *.
        specialize (Hen' k). rewrite Hl in Hen'. inversion Hen'; subst. eauto.
      + by eapply insert_encodes.
      + by left.
      + right. by eapply insert_starts_leak.
    - destruct (IH Hlg) as (Hor & Hvv & Hpd).
      destruct (whist_inv Hn B H enc dec Hcodec L st lg hs Hinj (shist_whist _ _ _ _ Hh) Hlg) as (hts & D & Hi).
      destruct (winv_handles _ _ _ _ _ _ _ _ Hinj Hi) as [_ HhV].
      rewrite Forall_forall in HhV. destruct (HhV (r, M)) as (t & Hr & Ht & Hst & Htpre & _); [rewrite Hp; by left|].
      cbn [fst snd] in *. subst r.
      pose proof (winv_counted _ _ _ _ _ _ _ _ Hi) as (_ & _ & [Hs _] & _).
      assert (out B H (remove_prog B st (troot H t)) st = ROk tt) as Hok by apply (remove_total B H st (troot H t)).
      assert (∀ x, x ∈ hlog B H (remove_prog B st (troot H t)) st → x ∈ L) as Hlog.
      { unfold remove_prog, remove. rewrite remove_no_hash. by intros x ?%elem_of_nil. }
      assert (b_vis B (fin B H (remove_prog B st (troot H t)) st) = bview (fin B H (remove_prog B st (troot H t)) st) ∧
        bpend (fin B H (remove_prog B st (troot H t)) st) = []) as [? ?].
      { destruct (trees_perm H enc L hs hts _ Hp (winv_trees _ _ _ _ _ _ _ _ Hi)) as (hts1 & Hp1 & Ht1).
        inversion Ht1 as [|? t1 ? hts' (Hr1 & _ & Hpre1 & _) _]; subst. cbn [fst] in Hr1.
        apply (troot_inj H (Sof L) Hinj) in Hr1; [subst t1|done|done].
        assert (counted H (Sof L) B ((troot H <$> hts') ++ [troot H t]) st D) as HC.
        { destruct Hi as [_ (HR & Hrest) _]. split; [|done]. eapply RC_perm; [|exact HR].
          rewrite Hp1. cbn. by rewrite Permutation_app_comm. }
        pose proof (remove_weak H (Sof L) Hinj B (fmap (M := list) (troot H) hts') t st D (λ _ _, False) HC Htpre (twf_nodup t Ht)) as Hw.
        apply wp_run in Hw; [|done]. rewrite Hok in Hw. by destruct Hw as (_ & ? & ?). }
      split; [|done]. destruct Hor as [HF|(k & e & Hpre & Hlk)]; [by left|]. right.
      pose proof (remove_leak H (Sof L) Hinj k e Hpre B t st (λ _ _, False) Hs Hvv Hpd Hst Htpre (twf_nodup t Ht) Hlk) as Hw.
      apply wp_run in Hw; [|done]. rewrite Hok in Hw. exists k, e. split; [done|]. apply Hw.
    - apply IH. intros; apply Hlg, elem_of_app; by left.
  Qed.
  (** C21: once all handles are removed, the database is empty if and only if no
      batch held a pair that a handle then alive held. *)
  Theorem all_removed_exact st lg F : shist B H enc dec st lg [] F → no_collision H lg →
    b_vis B st = ∅ ↔ F.
  Proof using Hn Hcodec HB.
    intros Hh Hc. split.
    - intros He. destruct (shist_leaks lg st lg [] F Hc Hh ltac:(done)) as [[HF|(k & e & _ & [Hlk _])] _]; [done|].
      rewrite He in Hlk. unfold nrefs in Hlk. rewrite lookup_empty in Hlk. lia.
    - intros HF. apply (all_removed Hn B H enc dec Hcodec st lg); [by eapply shist_rhist|done].
  Qed.
End Leaks.
