(** * Single-key reads and inclusion proofs on a stored trie *)
From Coq Require Import Strings.Byte NArith.
From stdpp Require Import prelude countable gmap sorting strings.
From Verif Require Import Model Bits Util Trie Store Logic.

Local Open Scope nat_scope.

(** ** Programs that never write *)
Fixpoint readonly {n A} (p : prog n A) : Prop :=
  match p with
  | Ret _ | Throw _ | Panic | Fuel => True
  | Hash cs k => ∀ h, readonly (k h)
  | Get l k => ∀ o, readonly (k o)
  | Put _ _ _ | Del _ _ | Flush _ => False
  end.
Lemma readonly_bind {n A C} (p : prog n A) (f : A → prog n C) :
  readonly p → (∀ a, readonly (f a)) → readonly (p ≫= f).
Proof.
  intros Hp Hf. induction p as [a|e| | |cs k IH|l k IH|l nd k IH|l k IH|k IH]; simpl in *; auto;
    try done; intros x; apply IH, Hp.
Qed.
Lemma readonly_lift {n A} (r : res A) : readonly (lift (n:=n) r).
Proof. by destruct r. Qed.
Lemma readonly_fin {n A} (B : backend n) H (p : prog n A) s : readonly p → fin B H p s = s.
Proof.
  unfold fin. revert s. induction p as [a|e| | |cs k IH|l k IH|l nd k IH|l k IH|k IH];
    intros s; simpl; auto; try done.
  intros Hr. specialize (IH (H cs) s (Hr _)).
  destruct (run B H (k (H cs)) s) as [[o s'] log]. done.
Qed.

Definition out_of {A} (r : res A) : outcome A :=
  match r with Ok a => ROk a | Err e => RErr e | Pan => RPanic end.

Section Reads.
  Context {n : nat} (Hn : 0 < n) (B : backend n) (H : list bytes → arr n).
  Context {V : Type} (encode : V → res bytes) (decode : bytes → res V) (max_depth : nat).
  Notation get_one_loop := (get_one_loop decode max_depth).
  Notation gen_proof_loop := (gen_proof_loop max_depth).
  Notation verify_inclusion_proof := (verify_inclusion_proof encode).
  Implicit Types (t : trie n) (k : arr n) (e : bytes).

  (** ** The descendant test on a single key is exact *)
  Lemma single_desc k bk si : si ≤ 8 * n →
    ∃ m, calc_min_split_index [k] bk = Ok m ∧
         check_descendants [k] si bk m = Ok (if decide (si ≤ klcp k bk) then [k] else []).
  Proof.
    clear B. intros Hs. assert (ksorted [k]) as Hsort by repeat constructor.
    destruct (calc_min_split_index_spec [k] bk Hn Hsort) as (m & Hm & Hmn & Hcase); [done|].
    exists m. split; [done|].
    assert (m ≤ klcp k bk ∧ (k = bk ∨ m = klcp k bk)) as [Hle Hc].
    { destruct Hcase as [[Hall ->]|[Hall (k' & Hk' & Hq)]].
      - rewrite (Hall k) by (by left). rewrite klcp_refl. split; [lia|by left].
      - apply elem_of_list_singleton in Hk' as ->. split; [lia|by right]. }
    rewrite check_descendants_weak; [|done|done|].
    2:{ intros k' ->%elem_of_list_singleton. done. }
    f_equal. rewrite filter_cons, filter_nil.
    assert (weak m si (klcp k bk) = true ↔ si ≤ klcp k bk) as Hw.
    { unfold weak. rewrite Nat.leb_le. destruct Hc as [-> | ->].
      - rewrite klcp_refl. lia.
      - pose proof (Nat.div_mod_eq (klcp k bk) 8). lia. }
    destruct (decide (weak m si (klcp k bk) = true)), (decide (si ≤ klcp k bk)); naive_solver.
  Qed.

  (** Number of nodes below the root that a search visits. *)
  Fixpoint tneed t k : nat :=
    match t with
    | TLeaf k' _ => if decide (k' = k) then 1 else 0
    | TNode l r =>
        if decide (tsplit l r ≤ klcp k (tmin l))
        then S (if bit k (tsplit l r) then tneed r k else tneed l k)
        else 0
    end.

  Lemma vis_lookup (s : b_st B) l v : has (b_vis B s) l v → ∃ rf, b_vis B s !! l = Some (Node rf v).
  Proof. apply has_lookup. Qed.

  Lemma get_one_loop_run fuel k d t s : stored H (b_vis B s) t → tpwf t →
    max_depth + 2 ≤ fuel + d → d ≤ max_depth + 1 →
    run B H (get_one_loop fuel k d false (troot H t)) s =
      (if max_depth <? d + tneed t k then RErr "Depth limit exceeded"
       else match tlookup t k with
            | Some e => match decode e with Ok v => ROk (Some v) | Err e => RErr e | Pan => RPanic end
            | None => ROk None
            end, s, []).
  Proof.
    revert fuel d. induction t as [k' e|l IHl r IHr]; intros fuel d Hst Hwf Hf Hd.
    - destruct fuel as [|fuel]; [lia|].
      destruct Hst as [(rl & Hl)%has_lookup (rd & Hdt)%has_lookup].
      cbn [get_one_loop tneed tlookup troot].
      destruct (Nat.ltb_spec max_depth d) as [Hlt|Hge].
      { destruct (Nat.ltb_spec max_depth (d + (if decide (k' = k) then 1 else 0))); [done|lia]. }
      cbn [mbind prog_bind pbind hash get_node run]. rewrite Hl. cbn [var tvar].
      destruct (decide (k' = k)) as [->|Hne].
      + destruct fuel as [|fuel]; [lia|]. cbn [get_one_loop].
        destruct (Nat.ltb_spec max_depth (d + 1)); [done|].
        cbn [mbind prog_bind pbind hash get_node run]. rewrite Hdt. cbn [var negb].
        by destruct (decode e).
      + cbn [mret prog_ret run]. destruct (Nat.ltb_spec max_depth (d + 0)); [lia|done].
    - destruct fuel as [|fuel]; [lia|].
      pose proof Hst as [(rn & Hl)%has_lookup [Hstl Hstr]].
      destruct Hwf as (Hwl & Hwr & Hlt).
      pose proof (tsplit_lt l r Hlt) as Hs8.
      cbn [get_one_loop tneed tlookup]. set (rt := troot H (TNode l r)) in *.
      destruct (Nat.ltb_spec max_depth d) as [Hmd|Hge].
      { destruct (Nat.ltb_spec max_depth
          (d + (if decide (tsplit l r ≤ klcp k (tmin l)) then
             S (if bit k (tsplit l r) then tneed r k else tneed l k) else 0))); [done|lia]. }
      cbn [mbind prog_bind pbind hash get_node run]. rewrite Hl. cbn [var tvar].
      destruct (single_desc k (tmin l) (tsplit l r)) as (m & Hm & Hc); [lia|].
      rewrite Hm. cbn [lift mbind prog_bind pbind]. rewrite Hc. cbn [lift mbind prog_bind pbind]. destruct (decide (tsplit l r ≤ klcp k (tmin l))) as [Hag|Hag].
      + rewrite choose_zero_ok by done. cbn [lift mbind prog_bind pbind].
        destruct (bit k (tsplit l r)); cbn [negb].
        * rewrite IHr by (done || lia). by rewrite <- Nat.add_assoc.
        * rewrite IHl by (done || lia). by rewrite <- Nat.add_assoc.
      + cbn [mret prog_ret run]. destruct (Nat.ltb_spec max_depth (d + 0)); [lia|done].
  Qed.

  Lemma get_one_run k t s : stored H (b_vis B s) t → tpwf t →
    run B H (get_one decode max_depth (troot H t) k) s =
      (if max_depth <? tneed t k then RErr "Depth limit exceeded"
       else match tlookup t k with
            | Some e => match decode e with Ok v => ROk (Some v) | Err e => RErr e | Pan => RPanic end
            | None => ROk None
            end, s, []).
  Proof. intros. unfold get_one. by rewrite get_one_loop_run by (done || lia). Qed.

  Lemma tneed_depth t k : tneed t k ≤ tdepth t + 1.
  Proof.
    induction t as [k' e|l IHl r IHr]; simpl.
    - destruct (decide _); lia.
    - destruct (decide _); [|lia]. destruct (bit _ _); lia.
  Qed.

  (** ** Inclusion proofs *)
  Fixpoint tproof t k : list (arr n * bool) :=
    match t with
    | TLeaf k' e => [(lloc H k' e, false); (dloc H k' e, false)]
    | TNode l r =>
        if bit k (tsplit l r) then (troot H l, false) :: tproof r k
        else (troot H r, true) :: tproof l k
    end.
  Lemma gen_proof_loop_run fuel k d t acc s : stored H (b_vis B s) t → tpwf t →
    max_depth + 2 ≤ fuel + d → d ≤ max_depth + 1 →
    run B H (gen_proof_loop fuel k d false acc (troot H t)) s =
      (if max_depth <? d + tneed t k then RErr "Depth limit exceeded"
       else match tlookup t k with
            | Some e => ROk (reverse (acc ++ tproof t k))
            | None => RErr "Key not found in tree"
            end, s,
       match tlookup t k with
       | Some e =>
           if max_depth <? d + tneed t k
           then if max_depth + 1 <? d + tneed t k then [] else [leaf_in k (dloc H k e)]
           else [leaf_in k (dloc H k e); data_in k e]
       | None => []
       end).
  Proof.
    revert fuel d acc. induction t as [k' e|l IHl r IHr]; intros fuel d acc Hst Hwf Hf Hd.
    - destruct fuel as [|fuel]; [lia|].
      destruct Hst as [(rl & Hl)%has_lookup (rd & Hdt)%has_lookup].
      cbn [gen_proof_loop tneed tlookup troot].
      destruct (Nat.ltb_spec max_depth d) as [Hlt|Hge].
      { destruct (decide (k' = k)).
        - destruct (Nat.ltb_spec max_depth (d + 1)); [|lia].
          destruct (Nat.ltb_spec (max_depth + 1) (d + 1)); [done|lia].
        - destruct (Nat.ltb_spec max_depth (d + 0)); [done|lia]. }
      cbn [mbind prog_bind pbind hash get_node run]. rewrite Hl. cbn [var tvar].
      destruct (decide (k' = k)) as [->|Hne].
      + cbn [mbind prog_bind hash pbind run]. destruct fuel as [|fuel]; [lia|]. cbn [gen_proof_loop].
        destruct (Nat.ltb_spec max_depth (d + 1)).
        { cbn [run]. destruct (Nat.ltb_spec (max_depth + 1) (d + 1)); [lia|]. done. }
        cbn [mbind prog_bind pbind hash get_node run]. rewrite Hdt. cbn [var negb mbind prog_bind hash pbind run].
        cbn [mret prog_ret run tproof]. rewrite <- app_assoc. done.
      + cbn [mret prog_ret run]. destruct (Nat.ltb_spec max_depth (d + 0)); [lia|done].
    - destruct fuel as [|fuel]; [lia|].
      pose proof Hst as [(rn & Hl)%has_lookup [Hstl Hstr]].
      destruct Hwf as (Hwl & Hwr & Hlt).
      pose proof (tsplit_lt l r Hlt) as Hs8.
      cbn [gen_proof_loop tneed tlookup tproof]. set (rt := troot H (TNode l r)) in *.
      destruct (Nat.ltb_spec max_depth d) as [Hmd|Hge].
      { destruct (decide _).
        - match goal with |- context [_ <? d + S ?x] =>
            destruct (Nat.ltb_spec max_depth (d + S x)); [|lia];
            destruct (Nat.ltb_spec (max_depth + 1) (d + S x)); [|lia] end.
          cbn [run]. by destruct (if bit k (tsplit l r) then tlookup r k else tlookup l k).
        - destruct (Nat.ltb_spec max_depth (d + 0)); [done|lia]. }
      cbn [mbind prog_bind pbind hash get_node run]. rewrite Hl. cbn [var tvar].
      destruct (single_desc k (tmin l) (tsplit l r)) as (m & Hm & Hc); [lia|].
      rewrite Hm. cbn [lift mbind prog_bind pbind]. rewrite Hc. cbn [lift mbind prog_bind pbind]. destruct (decide (tsplit l r ≤ klcp k (tmin l))) as [Hag|Hag].
      + rewrite choose_zero_ok by done. cbn [lift mbind prog_bind pbind].
        destruct (bit k (tsplit l r)); cbn [negb].
        * rewrite IHr by (done || lia). rewrite <- !Nat.add_assoc, <- app_assoc. done.
        * rewrite IHl by (done || lia). rewrite <- !Nat.add_assoc, <- app_assoc. done.
      + cbn [mret prog_ret run]. destruct (Nat.ltb_spec max_depth (d + 0)); [lia|done].
  Qed.
  Lemma gen_proof_run k t s : stored H (b_vis B s) t → tpwf t →
    out B H (generate_inclusion_proof max_depth (troot H t) k) s =
      (if max_depth <? tneed t k then RErr "Depth limit exceeded"
       else match tlookup t k with
            | Some e => ROk (reverse (tproof t k))
            | None => RErr "Key not found in tree"
            end).
  Proof.
    intros. unfold generate_inclusion_proof, out. by rewrite gen_proof_loop_run by (done || lia).
  Qed.

  (** Verification.  [vfold] is the value computed by the loop. *)
  Fixpoint vfold (cur : arr n) (items : list (arr n * bool)) : arr n :=
    match items with
    | [] => cur
    | (h, b) :: items' =>
        vfold (H (if b : bool then branch_in cur h else branch_in h cur)) items'
    end.
  Fixpoint vlog (cur : arr n) (items : list (arr n * bool)) : list (list bytes) :=
    match items with
    | [] => []
    | (h, b) :: items' =>
        let x := if b : bool then branch_in cur h else branch_in h cur in
        x :: vlog (H x) items'
    end.
  Lemma verify_fold_run cur items s {A} (f : arr n → prog n A) :
    run B H (verify_fold cur items ≫= f) s =
      let '(o, s', log) := run B H (f (vfold cur items)) s in (o, s', vlog cur items ++ log).
  Proof.
    revert cur. induction items as [|[h b] items IH]; intros cur.
    - cbn [verify_fold mret prog_ret mbind prog_bind pbind vfold vlog app].
      by destruct (run B H (f cur) s) as [[??]?].
    - cbn [verify_fold mbind prog_bind pbind hash run vfold vlog].
      specialize (IH (H (if b then branch_in cur h else branch_in h cur))).
      unfold mbind, prog_bind in IH. rewrite IH.
      destruct (run B H (f (vfold (H (if b then branch_in cur h else branch_in h cur)) items)) s) as [[??]?]. done.
  Qed.

  Lemma verify_run root k v e p0 p1 items s : encode v = Ok e →
    run B H (verify_inclusion_proof root k v (p0 :: p1 :: items)) s =
      if decide (dloc H k e = p0.1) then
        if decide (lloc H k e = p1.1) then
          (if decide (root = vfold (lloc H k e) items) then ROk tt else RErr "Proof is invalid", s,
           data_in k e :: leaf_in k (dloc H k e) :: vlog (lloc H k e) items)
        else (RErr "Proof is invalid", s, [data_in k e; leaf_in k (dloc H k e)])
      else (RErr "Proof is invalid", s, [data_in k e]).
  Proof.
    intros He. unfold verify_inclusion_proof. rewrite He.
    cbn [lift mbind prog_bind pbind hash run]. fold (dloc H k e).
    destruct (decide (dloc H k e = p0.1)) as [Hd|Hd]; [|done].
    cbn [mbind prog_bind pbind hash run]. fold (lloc H k e).
    destruct (decide (lloc H k e = p1.1)) as [Hl|Hl]; [|done].
    pose proof (verify_fold_run (lloc H k e) items s
      (λ cur, if decide (root = cur) then mret () else Throw "Proof is invalid")) as Hv.
    rewrite Hv.
    destruct (decide (root = _)); cbn [mret prog_ret run]; by rewrite app_nil_r.
  Qed.

  (** Completeness: the generated proof folds to the root. *)
  Fixpoint tpath t k : list (arr n * bool) :=
    match t with
    | TLeaf _ _ => []
    | TNode l r =>
        if bit k (tsplit l r) then (troot H l, false) :: tpath r k
        else (troot H r, true) :: tpath l k
    end.
  Lemma tproof_path t k e : tlookup t k = Some e →
    tproof t k = tpath t k ++ [(lloc H k e, false); (dloc H k e, false)].
  Proof.
    induction t as [k' e'|l IHl r IHr]; simpl.
    - destruct (decide (k' = k)) as [->|]; [|done]. by intros [= ->].
    - destruct (decide _); [|done]. destruct (bit k _); intros Hk; simpl; f_equal; auto.
  Qed.
  Lemma vfold_app cur i1 i2 : vfold cur (i1 ++ i2) = vfold (vfold cur i1) i2.
  Proof. revert cur. induction i1 as [|[h b] i1 IH]; intros cur; simpl; auto. Qed.
  Lemma vfold_tpath t k e : tlookup t k = Some e →
    vfold (lloc H k e) (reverse (tpath t k)) = troot H t.
  Proof.
    induction t as [k' e'|l IHl r IHr]; simpl.
    - destruct (decide (k' = k)) as [->|]; [|done]. by intros [= ->].
    - destruct (decide _); [|done]. destruct (bit k _); intros Hk;
        rewrite reverse_cons, vfold_app; [rewrite IHr by done|rewrite IHl by done]; done.
  Qed.
  Lemma verify_complete t k v e s : encode v = Ok e → tlookup t k = Some e →
    out B H (verify_inclusion_proof (troot H t) k v (reverse (tproof t k))) s = ROk tt.
  Proof.
    intros He Hk. rewrite (tproof_path t k e Hk), reverse_app.
    replace (reverse [(lloc H k e, false); (dloc H k e, false)])
      with [(dloc H k e, false); (lloc H k e, false)] by done.
    cbn [app]. unfold out. rewrite (verify_run _ _ _ e) by done.
    rewrite !decide_True by done. cbn [fst].
    rewrite decide_True; [done|]. symmetry. by apply vfold_tpath.
  Qed.

  (** Soundness: a path that folds to the root of a trie is a path of it. *)
  Lemma vlog_app cur i1 i2 : vlog cur (i1 ++ i2) = vlog cur i1 ++ vlog (vfold cur i1) i2.
  Proof. revert cur. induction i1 as [|[h b] i1 IH]; intros cur; simpl; [done|]. by rewrite IH. Qed.
  Lemma vfold_sound (S : list bytes → Prop) items k e t :
    inj_on H S → Forall S (tpre H t) →
    S (data_in k e) → S (leaf_in k (dloc H k e)) → Forall S (vlog (lloc H k e) items) →
    vfold (lloc H k e) items = troot H t → (k, e) ∈ tleaves t.
  Proof.
    intros Hinj Ht Hd Hl. revert t Ht.
    induction items as [|[h b] items IH] using rev_ind; intros t Ht Hlog Heq.
    - simpl in Heq. change (lloc H k e) with (troot H (TLeaf k e)) in Heq.
      apply (troot_inj H S Hinj) in Heq; [subst t; by left| |done].
      simpl. rewrite !Forall_cons. auto.
    - rewrite vfold_app in Heq. rewrite vlog_app in Hlog.
      apply Forall_app in Hlog as [Hlog1 Hlog2]. simpl in Heq, Hlog2.
      rewrite Forall_cons in Hlog2. destruct Hlog2 as [Hx _].
      set (cur := vfold (lloc H k e) items) in *.
      destruct t as [k' e'|l r]; simpl in Heq, Ht; rewrite !Forall_cons in Ht.
      + destruct Ht as (_ & Hlf & _). apply Hinj in Heq; [|done|done]. by destruct b.
      + destruct Ht as [Hb Hlr]. apply Forall_app in Hlr as [Hpl Hpr].
        apply Hinj in Heq; [|done|done]. simpl. apply elem_of_app.
        destruct b; apply branch_in_inj in Heq as [H1 H2].
        * left. by apply IH.
        * right. by apply IH.
  Qed.

  Lemma verify_ok_inv root k v proof s :
    out B H (verify_inclusion_proof root k v proof) s = ROk tt →
    ∃ e p0 p1 items, encode v = Ok e ∧ proof = p0 :: p1 :: items ∧
      dloc H k e = p0.1 ∧ lloc H k e = p1.1 ∧ root = vfold (lloc H k e) items ∧
      hlog B H (verify_inclusion_proof root k v proof) s =
        data_in k e :: leaf_in k (dloc H k e) :: vlog (lloc H k e) items.
  Proof.
    destruct proof as [|p0 [|p1 items]]; [done|done|].
    destruct (encode v) as [e|er|] eqn:He.
    - unfold out, hlog. rewrite (verify_run _ _ _ e) by done.
      destruct (decide (dloc H k e = p0.1)); [|done].
      destruct (decide (lloc H k e = p1.1)); [|done].
      destruct (decide (root = vfold (lloc H k e) items)); [|done].
      intros _. by exists e, p0, p1, items.
    - unfold out, verify_inclusion_proof. rewrite He. done.
    - unfold out, verify_inclusion_proof. rewrite He. done.
  Qed.
End Reads.
