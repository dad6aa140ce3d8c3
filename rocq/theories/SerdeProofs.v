(** * The other serialization features: proofs *)
From Coq Require Import Strings.Byte Strings.String NArith.
From stdpp Require Import prelude countable gmap sorting strings.
From Verif Require Import Model Codec CodecProofs Bytes Serde.

Local Open Scope nat_scope.

(** ** Documents *)
Lemma byte_of_to_N b : byte_of (Byte.to_N b) = b.
Proof. by destruct b. Qed.
Lemma to_N_lt b : (Byte.to_N b < 256)%N.
Proof. by destruct b. Qed.
Lemma de_u8_ser b : de_u8 (DNum (Byte.to_N b)) = Ok b.
Proof.
  unfold de_u8, de_num. rewrite (proj2 (N.ltb_lt _ _) (to_N_lt b)). cbn [mbind res_bind].
  by rewrite byte_of_to_N.
Qed.
Lemma res_list_u8 l : res_list de_u8 ((λ b, DNum (Byte.to_N b)) <$> l) = Ok l.
Proof.
  induction l as [|b l IH]; [done|]. rewrite fmap_cons. cbn [res_list]. rewrite de_u8_ser. cbn [mbind res_bind].
  by rewrite IH.
Qed.
Lemma de_vec_ser l : de_vec (ser_bytes l) = Ok l.
Proof. apply res_list_u8. Qed.
Lemma de_u64_ser x : u64 x → de_u64 (ser_num x) = Ok x.
Proof.
  intros Hx. unfold de_u64, ser_num, de_num. rewrite (proj2 (N.ltb_lt _ _) Hx). cbn [mbind res_bind].
  by rewrite Nat2N.id.
Qed.
Lemma de_arr_fixed {n} (a : arr n) : de_arr visit_seq_fixed (ser_bytes a) = Ok a.
Proof.
  unfold de_arr, ser_bytes, visit_seq_fixed. rewrite res_list_u8. cbn [mbind res_bind]. f_equal.
  apply mkarr_arr.
Qed.

Lemma struct_node r v :
  de_struct [name "references"; name "node"] (DMap [(name "references", r); (name "node", v)]) = Ok [r; v].
Proof. reflexivity. Qed.
Lemma struct_leaf k d : de_struct [name "key"; name "data"] (DMap [(name "key", k); (name "data", d)]) = Ok [k; d].
Proof. reflexivity. Qed.
Lemma struct_data v : de_struct [name "value"] (DMap [(name "value", v)]) = Ok [v].
Proof. reflexivity. Qed.
Lemma struct_branch c z o s k :
  de_struct [name "count"; name "zero"; name "one"; name "split_index"; name "key"]
    (DMap [(name "count", c); (name "zero", z); (name "one", o); (name "split_index", s); (name "key", k)]) =
  Ok [c; z; o; s; k].
Proof. reflexivity. Qed.
Lemma variant_branch {n} (vseq : list doc → res (arr n)) d :
  de_variant vseq (DMap [(name "Branch", d)]) = de_branch vseq d.
Proof. reflexivity. Qed.
Lemma variant_leaf {n} (vseq : list doc → res (arr n)) d : de_variant vseq (DMap [(name "Leaf", d)]) = de_leaf vseq d.
Proof. reflexivity. Qed.
Lemma variant_data {n} (vseq : list doc → res (arr n)) d : de_variant vseq (DMap [(name "Data", d)]) = de_data d.
Proof. reflexivity. Qed.
Local Opaque name.


(** With a [visit_seq], every node comes back. *)
Lemma de_node_fixed {n} (nd : node n) : small nd → de_node visit_seq_fixed (ser_node nd) = Ok nd.
Proof.
  intros (Hn & Hr & Hv). unfold de_node, ser_node. rewrite struct_node. cbn [mbind res_bind].
  rewrite de_u64_ser by done. cbn [mbind res_bind]. destruct nd as [r v]. cbn [var refs] in *.
  destruct v as [c z o s k|k d|v]; cbn [small_variant ser_variant] in *.
  - rewrite variant_branch. unfold de_branch. rewrite struct_branch. cbn [mbind res_bind].
    destruct Hv as [Hc Hs]. rewrite de_u64_ser by done. cbn [mbind res_bind].
    rewrite !de_arr_fixed. cbn [mbind res_bind]. rewrite de_u64_ser by done. cbn [mbind res_bind]. done.
  - rewrite variant_leaf. unfold de_leaf. rewrite struct_leaf. cbn [mbind res_bind].
    rewrite !de_arr_fixed. done.
  - rewrite variant_data. unfold de_data. rewrite struct_data. cbn [mbind res_bind].
    by rewrite de_vec_ser.
Qed.
(** Data nodes come back in any case, *)
Lemma de_node_data {n} (nd : node n) : small nd → is_data nd = true → de_node visit_seq (ser_node nd) = Ok nd.
Proof.
  intros (Hn & Hr & Hv) Hd. unfold de_node, ser_node. rewrite struct_node. cbn [mbind res_bind].
  rewrite de_u64_ser by done. cbn [mbind res_bind]. destruct nd as [r v]. unfold is_data in Hd. cbn [var refs] in *.
  destruct v as [c z o s k|k d|v]; cbn [small_variant ser_variant] in *; try done.
  rewrite variant_data. unfold de_data. rewrite struct_data. cbn [mbind res_bind].
  by rewrite de_vec_ser.
Qed.
(** leaves and branches never. *)
Lemma de_node_fails {n} (nd : node n) : small nd → is_data nd = false → de_node (n:=n) visit_seq (ser_node nd) = Err seq_error.
Proof.
  intros (Hn & Hr & Hv) Hd. unfold de_node, ser_node. rewrite struct_node. cbn [mbind res_bind].
  rewrite de_u64_ser by done. cbn [mbind res_bind]. destruct nd as [r v]. unfold is_data in Hd. cbn [var refs] in *.
  destruct v as [c z o s k|k d|v]; cbn [small_variant ser_variant] in *; try done.
  - rewrite variant_branch. unfold de_branch. rewrite struct_branch. cbn [mbind res_bind].
    destruct Hv as [Hc Hs]. rewrite (de_u64_ser c) by done. reflexivity.
Qed.

(** ** Formats *)

Section Faithful.
  Context (F : format) (HF : faithful F).
  Lemma f_dec_fixed {n} (nd : node n) : small nd → f_dec_with visit_seq_fixed F (f_enc F nd) = Ok nd.
  Proof using HF. intros Hs. unfold f_dec_with, f_enc. rewrite HF by done. by apply de_node_fixed. Qed.
  Lemma f_dec_data {n} (nd : node n) : small nd → is_data nd = true → f_dec F (f_enc F nd) = Ok nd.
  Proof using HF. intros Hs Hd. unfold f_dec, f_dec_with, f_enc. rewrite HF by done. by apply de_node_data. Qed.
  Lemma f_dec_fails {n} (nd : node n) : small nd → is_data nd = false → f_dec (n:=n) F (f_enc F nd) = Err seq_error.
  Proof using HF. intros Hs Hd. unfold f_dec, f_dec_with, f_enc. rewrite HF by done. by apply de_node_fails. Qed.
End Faithful.

(** ** JSON is faithful *)
Definition nodig (b : bytes) : Prop := match b with c :: _ => is_digit c = false | [] => True end.
Definition clean (s : bytes) : Prop := Forall (λ c, c ≠ x22 ∧ c ≠ x5c) s.
Fixpoint plain (d : doc) : Prop :=
  match d with
  | DNum x => (x < 10 ^ 20)%N
  | DStr s => clean s
  | DSeq l => foldr (λ d P, plain d ∧ P) True l
  | DMap l => foldr (λ p P, (clean p.1 ∧ plain p.2) ∧ P) True l
  end.

Lemma digit_spec x : (x < 10)%N → is_digit (digit x) = true ∧ (Byte.to_N (digit x) - 48 = x)%N.
Proof.
  intros Hx. assert (x = 0 ∨ x = 1 ∨ x = 2 ∨ x = 3 ∨ x = 4 ∨ x = 5 ∨ x = 6 ∨ x = 7 ∨ x = 8 ∨ x = 9)%N as Hc by lia.
  destruct Hc as [->|[->|[->|[->|[->|[->|[->|[->|[->| ->]]]]]]]]]; split; reflexivity.
Qed.
Lemma rnum_wnum f x rest : (x < 10 ^ N.of_nat f)%N → rnum 0 (wnum f x ++ rest) = rnum x rest.
Proof.
  revert x rest. induction f as [|f IH]; intros x rest Hx.
  - change (10 ^ N.of_nat 0)%N with 1%N in Hx. by replace x with 0%N by lia.
  - cbn [wnum]. destruct (digit_spec (x mod 10)) as [Hd1 Hd2]; [apply N.mod_lt; lia|].
    pose proof (N.div_mod x 10 ltac:(lia)) as Hdm.
    destruct (N.ltb_spec x 10) as [Hlt|Hge].
    + cbn [app rnum]. rewrite Hd1, Hd2. f_equal. rewrite N.mod_small by done. lia.
    + rewrite <- (assoc_L (++)). rewrite IH.
      * cbn [app rnum]. rewrite Hd1, Hd2. f_equal. lia.
      * apply N.div_lt_upper_bound; [lia|]. rewrite Nat2N.inj_succ, N.pow_succ_r' in Hx. lia.
Qed.
Lemma wnum_head f x : ∃ c r, wnum (S f) x = c :: r ∧ is_digit c = true.
Proof.
  revert x. induction f as [|f IH]; intros x.
  - cbn [wnum]. destruct (digit_spec (x mod 10)) as [Hd1 Hd2]; [apply N.mod_lt; lia|].
    destruct (x <? 10)%N; eauto.
  - change (wnum (S (S f)) x) with ((if (x <? 10)%N then [] else wnum (S f) (x / 10)) ++ [digit (x mod 10)]).
    destruct (digit_spec (x mod 10)) as [Hd1 Hd2]; [apply N.mod_lt; lia|].
    destruct (x <? 10)%N; [by eexists _, _|]. destruct (IH (x / 10)%N) as (c & r & Hw & Hc).
    rewrite Hw. by eexists _, _.
Qed.

(** The bodies of sequences and maps. *)
Fixpoint wseq (l : list doc) : bytes :=
  match l with [] => [] | [d] => json_write d | d :: l' => json_write d ++ x2c :: wseq l' end.
Fixpoint wmap (l : list (bytes * doc)) : bytes :=
  match l with
  | [] => []
  | [(s, d)] => json_str s ++ x3a :: json_write d
  | (s, d) :: l' => json_str s ++ x3a :: json_write d ++ x2c :: wmap l'
  end.
Lemma json_write_seq l : json_write (DSeq l) = x5b :: wseq l ++ [x5d].
Proof. reflexivity. Qed.
Lemma json_write_map l : json_write (DMap l) = x7b :: wmap l ++ [x7d].
Proof. reflexivity. Qed.

Lemma next_same c b : next c (c :: b) = Some b.
Proof. unfold next. by destruct (Byte.eqb c c) eqn:E; [|apply Byte.eqb_false in E]. Qed.
Lemma next_other c d b : c ≠ d → next c (d :: b) = None.
Proof. intros Hne. unfold next. by destruct (Byte.eqb c d) eqn:E; [apply Byte.byte_dec_bl in E|]. Qed.
Lemma rstr_clean s rest : clean s → rstr (s ++ x22 :: rest) = Ok (s, rest).
Proof.
  induction s as [|c s IH]; intros Hc; [done|]. apply Forall_cons in Hc as [[H1 H2] Hc].
  cbn [app rstr]. rewrite (IH Hc).
  destruct (Byte.eqb x22 c) eqn:E1; [apply Byte.byte_dec_bl in E1; congruence|].
  by destruct (Byte.eqb x5c c) eqn:E2; [apply Byte.byte_dec_bl in E2; congruence|].
Qed.
(** What a value starts with. *)
Lemma json_write_head d : ∃ c r, json_write d = c :: r ∧ c ≠ x5d ∧ c ≠ x7d.
Proof.
  destruct d as [x|s|l|l].
  - destruct (wnum_head 19 x) as (c & r & Hw & Hc). exists c, r. split; [exact Hw|].
    split; intros ->; done.
  - by eexists _, _.
  - rewrite json_write_seq. by eexists _, _.
  - rewrite json_write_map. by eexists _, _.
Qed.

Section DocInd.
  Context (P : doc → Prop) (Hnum : ∀ x, P (DNum x)) (Hstr : ∀ s, P (DStr s))
    (Hseq : ∀ l, Forall P l → P (DSeq l)) (Hmap : ∀ l, Forall (λ p, P p.2) l → P (DMap l)).
  Fixpoint doc_ind' (d : doc) : P d :=
    match d with
    | DNum x => Hnum x
    | DStr s => Hstr s
    | DSeq l => Hseq l ((fix go (l : list doc) : Forall P l :=
        match l with [] => Forall_nil_2 _ | d :: l' => Forall_cons_2 _ _ _ (doc_ind' d) (go l') end) l)
    | DMap l => Hmap l ((fix go (l : list (bytes * doc)) : Forall (λ p, P p.2) l :=
        match l with
        | [] => Forall_nil_2 _
        | p :: l' => Forall_cons_2 (λ p, P p.2) p _ (doc_ind' p.2) (go l')
        end) l)
    end.
End DocInd.

Definition good (d : doc) : Prop :=
  plain d → ∀ f rest, length (json_write d) ≤ f → nodig rest → rvalue f (json_write d ++ rest) = Ok (d, rest).

Local Opaque wnum.
Lemma rvalue_digit c b f : is_digit c = true →
  rvalue (S f) (c :: b) = Ok (DNum (rnum 0 (c :: b)).1, (rnum 0 (c :: b)).2).
Proof. intros Hc. cbn [rvalue]. destruct (rnum 0 (c :: b)) as [x r]. 
  rewrite !next_other by (intros <-; discriminate Hc). by rewrite Hc. Qed.
Lemma rnum_stop x rest : nodig rest → rnum x rest = (x, rest).
Proof. intros Hr. destruct rest as [|c' rest']; [done|]. cbn [rnum]. unfold nodig in Hr. by rewrite Hr. Qed.
Lemma rvalue_num x f rest : (x < 10 ^ 20)%N → 0 < f → nodig rest →
  rvalue f (json_num x ++ rest) = Ok (DNum x, rest).
Proof.
  intros Hx Hf Hr. destruct f as [|f]; [lia|]. unfold json_num.
  assert (10 ^ N.of_nat 20 = 10 ^ 20)%N as Hp by reflexivity. rewrite <- Hp in Hx.
  pose proof (rnum_wnum 20 x rest Hx) as Hw. destruct (wnum_head 19 x) as (c & r & He & Hc).
  rewrite (rnum_stop x rest Hr) in Hw. rewrite He in Hw |- *. clear He. cbn [app] in Hw |- *.
  rewrite rvalue_digit by done. by rewrite Hw.
Qed.
Lemma relems_good l f rest : l ≠ [] → Forall good l → plain (DSeq l) → S (length (wseq l)) ≤ f →
  relems f (wseq l ++ x5d :: rest) = Ok (l, rest).
Proof.
  revert f. induction l as [|d l IH]; intros f Hne Hg Hp Hf; [done|]. clear Hne.
  apply Forall_cons in Hg as [Hd Hg]. destruct Hp as [Hpd Hpl]. destruct f as [|f]; [lia|].
  destruct l as [|d' l].
  - cbn [wseq relems] in *. rewrite (Hd Hpd); [|lia|done]. cbn [mbind res_bind fst snd]. rewrite next_other by done. by rewrite next_same.
  - change (wseq (d :: d' :: l)) with (json_write d ++ x2c :: wseq (d' :: l)) in *.
    rewrite app_length in Hf. cbn [length] in Hf.
    rewrite <- (assoc_L (++)). cbn [relems]. rewrite <- app_comm_cons.
    rewrite (Hd Hpd); [|lia|done]. cbn [mbind res_bind fst snd].
    destruct (json_write_head d) as (c & r & He & _). rewrite He in Hf. cbn [length] in Hf.
    rewrite next_same. rewrite IH; [done|done|done|exact Hpl|lia].
Qed.
Lemma rfields_good l f rest : l ≠ [] → Forall (λ p, good p.2) l → plain (DMap l) → S (length (wmap l)) ≤ f →
  rfields f (wmap l ++ x7d :: rest) = Ok (l, rest).
Proof.
  revert f. induction l as [|[s d] l IH]; intros f Hne Hg Hp Hf; [done|]. clear Hne.
  apply Forall_cons in Hg as [Hd Hg]. destruct Hp as [[Hps Hpd] Hpl]. cbn [fst snd] in *. destruct f as [|f]; [lia|].
  destruct l as [|[s' d'] l].
  - cbn [wmap rfields] in *. unfold json_str in *. cbn [app] in *. rewrite <- !(assoc_L (++)). cbn [app].
    rewrite next_same. rewrite rstr_clean by done. cbn [mbind res_bind fst snd]. rewrite next_same.
    cbn [length] in Hf. rewrite !app_length in Hf. cbn [length] in Hf.
    rewrite (Hd Hpd); [|lia|done]. cbn [mbind res_bind fst snd]. rewrite next_other by done. by rewrite next_same.
  - change (wmap ((s, d) :: (s', d') :: l)) with (json_str s ++ x3a :: json_write d ++ x2c :: wmap ((s', d') :: l)) in *.
    unfold json_str at 1 in Hf. unfold json_str at 1. cbn [rfields app length] in *.
    rewrite !app_length in Hf. cbn [length] in Hf. rewrite !app_length in Hf. cbn [length] in Hf.
    rewrite <- !(assoc_L (++)). cbn [app]. rewrite <- !(assoc_L (++)). cbn [app].
    rewrite next_same. rewrite rstr_clean by done. cbn [mbind res_bind fst snd]. rewrite next_same.
    rewrite (Hd Hpd); [|lia|done]. cbn [mbind res_bind fst snd].
    rewrite next_same. rewrite IH; [done|done|done|exact Hpl|lia].
Qed.
Lemma all_good d : good d.
Proof.
  induction d as [x|s|l Hl|l Hl] using doc_ind'; intros Hp f rest Hf Hr.
  - apply rvalue_num; [exact Hp| |done]. destruct (json_write_head (DNum x)) as (c & r & He & _).
    rewrite He in Hf. cbn [length] in Hf. lia.
  - destruct f as [|f]; [cbn in Hf; lia|]. cbn [json_write]. unfold json_str. cbn [app rvalue].
    rewrite <- (assoc_L (++)). cbn [app]. rewrite next_other by done. rewrite next_other by done. rewrite next_same. by rewrite rstr_clean.
  - rewrite json_write_seq in *. cbn [length] in Hf. rewrite app_length in Hf. cbn [length] in Hf.
    destruct f as [|f]; [lia|]. destruct l as [|d l]; [done|].
    assert (relems f (wseq (d :: l) ++ x5d :: rest) = Ok (d :: l, rest)) as He
      by (apply relems_good; [done|done|exact Hp|lia]).
    assert (∃ c r, wseq (d :: l) ++ x5d :: rest = c :: r ∧ c ≠ x5d) as (c & r & Hc & Hne).
    { destruct (json_write_head d) as (c & r & Hw & Hc & _). cbn [wseq]. rewrite Hw.
      destruct l; eexists _, _; (split; [reflexivity|done]). }
    cbn [app]. rewrite <- (assoc_L (++)). cbn [app rvalue].
    rewrite next_same. rewrite Hc in He |- *. rewrite next_other by congruence. by rewrite He.
  - rewrite json_write_map in *. cbn [length] in Hf. rewrite app_length in Hf. cbn [length] in Hf.
    destruct f as [|f]; [lia|]. destruct l as [|[s d] l]; [done|].
    assert (rfields f (wmap ((s, d) :: l) ++ x7d :: rest) = Ok ((s, d) :: l, rest)) as He
      by (apply rfields_good; [done|done|exact Hp|lia]).
    assert (∃ r, wmap ((s, d) :: l) ++ x7d :: rest = x22 :: r) as (r & Hc).
    { cbn [wmap]. destruct l; eexists; reflexivity. }
    cbn [app]. rewrite <- (assoc_L (++)). cbn [app rvalue].
    rewrite next_other by done. rewrite next_same. rewrite Hc in He |- *. rewrite next_other by done. by rewrite He.
Qed.
Theorem json_roundtrip d : plain d → json_read (json_write d) = Ok d.
Proof.
  intros Hp. unfold json_read. pose proof (all_good d Hp (S (length (json_write d))) []) as Hr.
  rewrite app_nil_r in Hr. rewrite Hr; [done|lia|done].
Qed.

Local Transparent name.
Lemma plain_bytes l : plain (ser_bytes l).
Proof.
  unfold ser_bytes. induction l as [|b l IH]; [done|]. rewrite fmap_cons. split; [|exact IH].
  cbn [plain]. pose proof (to_N_lt b). lia.
Qed.
Lemma plain_num x : u64 x → plain (ser_num x).
Proof. intros Hx. cbn [ser_num plain]. unfold u64 in Hx. eapply N.lt_le_trans; [exact Hx|]. by vm_compute. Qed.
Lemma clean_b s : forallb (λ c, negb (Byte.eqb c x22) && negb (Byte.eqb c x5c)) s = true → clean s.
Proof.
  intros Hs. apply Forall_forall. intros c Hc. rewrite forallb_forall in Hs.
  apply elem_of_list_In, Hs in Hc. apply andb_prop in Hc as [H1 H2]. split; intros ->; done.
Qed.
Lemma plain_node {n} (nd : node n) : small nd → plain (ser_node nd).
Proof.
  intros (_ & Hr & Hv). unfold ser_node. cbn [plain foldr fst snd]. split; [split; [by apply clean_b|by apply plain_num]|].
  split; [|done]. split; [by apply clean_b|].
  destruct (var nd) as [c z o s k|k d|v]; cbn [small_variant ser_variant plain foldr fst snd] in *;
    (split; [split; [by apply clean_b|]|done]).
  - destruct Hv as [Hc Hs].
    repeat split; (by apply clean_b) || (by apply plain_num) || (by apply plain_bytes).
  - repeat split; (by apply clean_b) || (by apply plain_bytes).
  - repeat split; (by apply clean_b) || (by apply plain_bytes).
Qed.
Theorem json_faithful : faithful json.
Proof. intros n nd Hs. apply json_roundtrip. by apply plain_node. Qed.

(** ** Execution *)

Section Exec.
  Context {n : nat} (H : list bytes → arr n) (fe : node n → bytes) (fd : bytes → res (node n)).
  Implicit Types (s : rocks_st n).

  Lemma fser_init : fser fe (b_init (rocks_db n)) = binit.
  Proof using. unfold fser, binit. simpl. by rewrite fmap_empty. Qed.
  Lemma fser_put s l nd : fser fe (b_put (rocks_db n) s l nd) = fput fe (fser fe s) l nd.
  Proof using. unfold fser, fput. simpl. by rewrite fmap_app. Qed.
  Lemma fser_del s l : fser fe (b_del (rocks_db n) s l) = bdel (fser fe s) l.
  Proof using. unfold fser, bdel. simpl. by rewrite fmap_delete. Qed.
  Lemma fser_apply m q :
    fe <$> apply_batch m q =
    foldl (λ m p, <[p.1 := p.2]> m) (fe <$> m) ((λ p : arr n * node n, (p.1, fe p.2)) <$> q).
  Proof using.
    revert m. induction q as [|[l nd] q IH]; intros m; [done|].
    rewrite fmap_cons. unfold apply_batch in *. cbn [foldl fst snd]. rewrite IH. by rewrite fmap_insert.
  Qed.
  Lemma fser_flush s : fser fe (b_flush (rocks_db n) s) = bflush (fser fe s).
  Proof using. unfold fser, bflush. cbn [b_flush rocks_db committed pending bcommitted bpending]. by rewrite fser_apply. Qed.

  (** [bad] nodes cannot be read back, others can. *)
  Context (bad : node n → bool) (er : string)
    (Hok : ∀ nd, small nd → bad nd = false → fd (fe nd) = Ok nd)
    (Hbad : ∀ nd, small nd → bad nd = true → fd (fe nd) = Err er).
  Fixpoint hits {A} (p : prog n A) (s : rocks_st n) : bool :=
    match p with
    | Ret _ | Throw _ | Panic | Fuel => false
    | Hash cs k => hits (k (H cs)) s
    | Get l k =>
        match committed s !! l with
        | Some nd => if bad nd then true else hits (k (Some nd)) s
        | None => hits (k None) s
        end
    | Put l nd k => hits k (b_put (rocks_db n) s l nd)
    | Del l k => hits k (b_del (rocks_db n) s l)
    | Flush k => hits k (b_flush (rocks_db n) s)
    end.
  Lemma frun_exact {A} (p : prog n A) s :
    (∀ s', s' ∈ states (rocks_db n) H p s → small_st s') →
    if hits p s then (frun fe fd H p (fser fe s)).1 = RErr er
    else frun fe fd H p (fser fe s) = (out (rocks_db n) H p s, fser fe (fin (rocks_db n) H p s)).
  Proof using Hok Hbad.
    revert s. induction p as [a|e| | |cs k IH|l k IH|l nd k IH|l k IH|k IH]; intros s Hs;
      assert (Hs0 : small_st s) by (apply Hs; left); unfold out, fin in *.
    - done.
    - done.
    - done.
    - done.
    - cbn [frun run hits states] in *. specialize (IH (H cs) s).
      destruct (run (rocks_db n) H (k (H cs)) s) as [[o st] lg].
      apply IH. intros s' Hs'. apply Hs. by right.
    - cbn [frun run hits states] in *. unfold fget. cbn [fser bcommitted]. rewrite lookup_fmap.
      specialize (IH (b_vis (rocks_db n) s !! l) s). cbn [b_vis rocks_db] in *.
      destruct (committed s !! l) as [nd|] eqn:E; cbn [fmap option_fmap option_map].
      + assert (small nd) as Hnd by (by apply Hs0 in E).
        destruct (bad nd) eqn:Eb.
        * by rewrite (Hbad nd Hnd Eb).
        * rewrite (Hok nd Hnd Eb). cbn [mbind res_bind].
          apply IH. intros s' Hs'. apply Hs. by right.
      + apply IH. intros s' Hs'. apply Hs. by right.
    - cbn [frun run hits states] in *. rewrite <- fser_put. apply IH. intros s' Hs'. apply Hs. by right.
    - cbn [frun run hits states] in *. rewrite <- fser_del. apply IH. intros s' Hs'. apply Hs. by right.
    - cbn [frun run hits states] in *. rewrite <- fser_flush. apply IH. intros s' Hs'. apply Hs. by right.
  Qed.
End Exec.

Lemma brun_frun {n A} (H : list bytes → arr n) (p : prog n A) s : brun H p s = frun enc_node (dec_node n) H p s.
Proof.
  revert s. induction p as [a|e| | |cs k IH|l k IH|l nd k IH|l k IH|k IH]; intros s; cbn [brun frun]; try done.
  change (bget s l) with (fget (dec_node n) s l). by destruct (fget (dec_node n) s l).
Qed.
Lemma hits_reads {n A} (H : list bytes → arr n) (p : prog n A) s :
  hits H (λ nd, negb (is_data nd)) p s = reads_node H p s.
Proof.
  revert s. induction p as [a|e| | |cs k IH|l k IH|l nd k IH|l k IH|k IH]; intros s; cbn [hits reads_node]; try done.
  destruct (committed s !! l) as [[r [? ? ? ? ?|? ?|v]]|]; cbn; auto.
Qed.
Lemma hits_none {n A} (H : list bytes → arr n) (p : prog n A) s : hits H (λ _, false) p s = false.
Proof.
  revert s. induction p as [a|e| | |cs k IH|l k IH|l nd k IH|l k IH|k IH]; intros s; cbn [hits]; try done.
  destruct (committed s !! l) as [nd|]; auto.
Qed.

(** With a self-describing format: an execution over bytes agrees with the one
    over nodes exactly up to the first leaf or branch it reads. *)
Theorem format_run (F : format) {n A} (H : list bytes → arr n) (p : prog n A) (s : rocks_st n) :
  faithful F → (∀ s', s' ∈ states (rocks_db n) H p s → small_st s') →
  if reads_node H p s then (frun (f_enc F) (f_dec F) H p (fser (f_enc F) s)).1 = RErr seq_error
  else frun (f_enc F) (f_dec F) H p (fser (f_enc F) s) =
       (out (rocks_db n) H p s, fser (f_enc F) (fin (rocks_db n) H p s)).
Proof.
  intros HF Hs. rewrite <- hits_reads. apply frun_exact; [| |done].
  - intros nd Hnd Hd. apply f_dec_data; [done|done|]. by destruct (is_data nd).
  - intros nd Hnd Hd. apply f_dec_fails; [done|done|]. by destruct (is_data nd).
Qed.
(** With a [visit_seq] it agrees everywhere. *)
Theorem format_run_fixed (F : format) {n A} (H : list bytes → arr n) (p : prog n A) (s : rocks_st n) :
  faithful F → (∀ s', s' ∈ states (rocks_db n) H p s → small_st s') →
  frun (f_enc F) (f_dec_with visit_seq_fixed F) H p (fser (f_enc F) s) =
  (out (rocks_db n) H p s, fser (f_enc F) (fin (rocks_db n) H p s)).
Proof.
  intros HF Hs.
  pose proof (frun_exact H (f_enc F) (f_dec_with visit_seq_fixed F) (λ _, false) "" ) as Hx.
  specialize (Hx (λ nd Hnd _, f_dec_fixed F HF nd Hnd) (λ nd _ (E : false = true), False_ind _ (Bool.diff_false_true E)) A p s Hs).
  by rewrite hits_none in Hx.
Qed.


(** ** Decoding never panics *)
Lemma res_list_no_pan {A B} (f : A → res B) l : (∀ a, f a ≠ Pan) → res_list f l ≠ Pan.
Proof.
  intros Hf. induction l as [|x l IH]; [done|]. cbn [res_list]. apply bind_no_pan; [done|].
  intros y. apply bind_no_pan; [done|]. done.
Qed.
Lemma de_struct_no_pan ns d : de_struct ns d ≠ Pan.
Proof.
  destruct d as [|? |l|l]; cbn [de_struct]; [done|done|by case_match|]. apply res_list_no_pan. intros s. unfold field.
  by repeat case_match.
Qed.
Lemma de_u64_no_pan d : de_u64 d ≠ Pan.
Proof. unfold de_u64. apply bind_no_pan; [|done]. destruct d; cbn [de_num]; try done. by case_match. Qed.
Lemma de_u8_no_pan d : de_u8 d ≠ Pan.
Proof. unfold de_u8. apply bind_no_pan; [|done]. destruct d; cbn [de_num]; try done. by case_match. Qed.
Lemma de_arr_no_pan {n} d : de_arr (n:=n) visit_seq d ≠ Pan.
Proof. by destruct d. Qed.
Lemma de_node_no_pan {n} d : de_node (n:=n) visit_seq d ≠ Pan.
Proof.
  unfold de_node. apply bind_no_pan; [apply de_struct_no_pan|]. intros [|r [|v [|? ?]]]; try done.
  apply bind_no_pan; [apply de_u64_no_pan|]. intros r'. apply bind_no_pan; [|done].
  destruct v as [| | |[|[t c] [|? ?]]]; try done. cbn [de_variant]. case_decide; [|case_decide; [|case_decide; [|done]]].
  - unfold de_branch. apply bind_no_pan; [apply de_struct_no_pan|]. intros [|c1 [|z [|o [|s [|k [|? ?]]]]]]; try done.
    apply bind_no_pan; [apply de_u64_no_pan|]. intros ?.
    do 2 (apply bind_no_pan; [apply de_arr_no_pan|intros ?]).
    apply bind_no_pan; [apply de_u64_no_pan|]. intros ?. apply bind_no_pan; [apply de_arr_no_pan|done].
  - unfold de_leaf. apply bind_no_pan; [apply de_struct_no_pan|]. intros [|k [|v [|? ?]]]; try done.
    apply bind_no_pan; [apply de_arr_no_pan|]. intros ?. apply bind_no_pan; [apply de_arr_no_pan|done].
  - unfold de_data. apply bind_no_pan; [apply de_struct_no_pan|]. intros [|v [|? ?]]; try done.
    apply bind_no_pan; [|done]. destruct v; try done. apply res_list_no_pan, de_u8_no_pan.
Qed.
Lemma rstr_no_pan b : rstr b ≠ Pan.
Proof.
  induction b as [|c b IH]; [done|]. cbn [rstr]. case_match; [done|]. case_match; [done|]. by apply bind_no_pan.
Qed.
Lemma parse_no_pan f : (∀ b, rvalue f b ≠ Pan) ∧ (∀ b, relems f b ≠ Pan) ∧ (∀ b, rfields f b ≠ Pan).
Proof.
  induction f as [|f (IHv & IHe & IHf)]; [done|]. split_and!; intros b.
  - cbn [rvalue]. case_match; [case_match; [done|by apply bind_no_pan]|].
    case_match; [case_match; [done|by apply bind_no_pan]|].
    case_match; [apply bind_no_pan; [apply rstr_no_pan|done]|].
    destruct b; [done|]. by case_match.
  - cbn [relems]. apply bind_no_pan; [done|]. intros v. case_match; [by apply bind_no_pan|]. by case_match.
  - cbn [rfields]. case_match; [|done]. apply bind_no_pan; [apply rstr_no_pan|]. intros s.
    case_match; [|done]. apply bind_no_pan; [done|]. intros v.
    case_match; [by apply bind_no_pan|]. by case_match.
Qed.
Theorem json_no_pan b : json_read b ≠ Pan.
Proof.
  unfold json_read. apply bind_no_pan; [apply (proj1 (parse_no_pan _))|]. intros r. by case_match.
Qed.
