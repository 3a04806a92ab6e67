(** Column-sorted lists of entries; the result of read_mtx. *)
From Coq Require Import ZifyBool ZifyNat.
From Verif Require Import Base Lib Lib2 M_Mat M_IO SpecIO L_Util L_Sparse4 L_Super3 L_IO.

Section Sorted.
Context {V : Type} {DV : Dflt V}.

Lemma by_columns_cons (e : ent V) es : by_columns (e :: es) <-> (forall e', In e' es -> ecol e <= ecol e') /\ by_columns es.
Proof.
  unfold by_columns. cbn [map]. rewrite sorted_le_cons. split; intros [H1 H2]; split; auto.
  - intros e' H. apply H1. now apply in_map.
  - intros y H. apply in_map_iff in H. destruct H as (e' & <- & H). auto.
Qed.

Definition cntlt (es : list (ent V)) (c : nat) : nat := length (filter (fun e => ecol e <? c) es).

Lemma sorted_split (f : ent V -> bool) es : by_columns es -> (forall e e', In e es -> In e' es -> ecol e <= ecol e' -> f e' = true -> f e = true) ->
  es = filter f es ++ filter (fun e => negb (f e)) es.
Proof.
  induction es as [|e es IH]; intros HS HF; [reflexivity|]. apply by_columns_cons in HS. destruct HS as [H1 H2]. cbn [filter]. destruct (f e) eqn:E.
  - cbn [negb app]. f_equal. apply IH; auto. intros a b Ha Hb. apply HF; right; auto.
  - cbn [negb]. replace (filter f es) with (@nil (ent V)).
    + cbn [app]. f_equal. clear IH. assert (G : forall x, In x es -> f x = false).
      { intros x Hx. destruct (f x) eqn:Ex; auto. assert (f e = true) by (apply (HF e x); [left; auto|right; auto|auto|auto]). congruence. }
      clear -G. induction es as [|a l IHl]; auto. cbn [filter]. rewrite (G a) by (left; auto). cbn [negb]. f_equal. apply IHl. intros; apply G; right; auto.
    + assert (G : forall x, In x es -> f x = false).
      { intros x Hx. destruct (f x) eqn:Ex; auto. assert (f e = true) by (apply (HF e x); [left; auto|right; auto|auto|auto]). congruence. }
      clear -G. induction es as [|a l IHl]; auto. cbn [filter]. rewrite (G a) by (left; auto). apply IHl. intros; apply G; right; auto.
Qed.

Lemma filter_filter {A} (f g : A -> bool) l : filter f (filter g l) = filter (fun x => f x && g x) l.
Proof. induction l as [|a l IH]; auto. cbn [filter]. destruct (g a) eqn:E; cbn [filter]; rewrite IH; [now rewrite andb_true_r|rewrite andb_false_r; auto]. Qed.

Lemma sorted_parts es c : by_columns es -> exists l, es = filter (fun e => ecol e <? c) es ++ in_col es c ++ l /\ cntlt es (S c) = cntlt es c + length (in_col es c).
Proof.
  intros HS.
  assert (A : es = filter (fun e => ecol e <? S c) es ++ filter (fun e => negb (ecol e <? S c)) es) by (apply sorted_split; auto; intros; lia).
  assert (B : filter (fun e => ecol e <? S c) es = filter (fun e => ecol e <? c) es ++ in_col es c).
  { assert (H : by_columns (filter (fun e => ecol e <? S c) es)).
    { clear -HS. induction es as [|e es IH]; auto. apply by_columns_cons in HS. destruct HS as [H1 H2]. cbn [filter]. destruct (ecol e <? S c); auto.
      apply by_columns_cons. split; auto. intros e' H. apply filter_In in H. apply H1; tauto. }
    rewrite (sorted_split (fun e => ecol e <? c) (filter (fun e => ecol e <? S c) es)) at 1; auto; [|intros; lia]. rewrite !filter_filter. unfold in_col. f_equal; apply filter_ext; intros a; lia. }
  eexists. split; [rewrite app_assoc, <- B; exact A|]. unfold cntlt. now rewrite B, app_length.
Qed.

Lemma cntlt_mono (es : list (ent V)) c c' : c <= c' -> cntlt es c <= cntlt es c'.
Proof. intros H. unfold cntlt. induction es as [|e es IH]; auto. cbn [filter]. destruct (Nat.ltb_spec (ecol e) c), (Nat.ltb_spec (ecol e) c'); cbn [length]; lia. Qed.

Lemma cntlt_all m n (es : list (ent V)) : fits m n es -> cntlt es n = length es.
Proof. intros H. unfold cntlt. induction es as [|e es IH]; auto. cbn [filter]. destruct (H e) as [_ H2]; [left; auto|]. replace (ecol e <? n) with true by lia. cbn [length]. rewrite IH; auto. intros x Hx; apply H; right; auto. Qed.

Lemma cntlt_0 (es : list (ent V)) : cntlt es 0 = 0.
Proof. unfold cntlt. induction es as [|e es IH]; auto. Qed.

Lemma cntlt_perm (es es' : list (ent V)) c : Permutation es es' -> cntlt es c = cntlt es' c.
Proof.
  unfold cntlt. induction 1 as [|x l l' _ IH|x y l|l l' l'' _ IH1 _ IH2]; auto; cbn [filter]; [destruct (ecol x <? c)|destruct (ecol x <? c), (ecol y <? c)|]; cbn [length]; auto. congruence.
Qed.

Lemma in_col_perm (es es' : list (ent V)) c : Permutation es es' -> Permutation (in_col es c) (in_col es' c).
Proof.
  unfold in_col. induction 1 as [|x l l' _ IH|x y l|l l' l'' _ IH1 _ IH2]; auto; cbn [filter]; [destruct (ecol x =? c)|destruct (ecol x =? c), (ecol y =? c)|]; auto; [constructor|]. eapply perm_trans; eauto.
Qed.

Lemma cntlt_step (es : list (ent V)) c : cntlt es (S c) = cntlt es c + length (in_col es c).
Proof.
  unfold cntlt, in_col. induction es as [|e es IH]; auto. cbn [filter]. destruct (Nat.ltb_spec (ecol e) (S c)), (Nat.ltb_spec (ecol e) c), (Nat.eqb_spec (ecol e) c); cbn [length]; lia.
Qed.

Lemma map_window {A B C} `{Dflt B} `{Dflt C} (g : A -> B) (h : A -> C) (u v w : list A) :
  map (fun k => ((map g (u ++ v ++ w)).[k], (map h (u ++ v ++ w)).[k])) (seq (length u) (length v)) = map (fun e => (g e, h e)) v.
Proof.
  revert u. induction v as [|a v IH]; intros u; [reflexivity|]. cbn [length seq map]. f_equal.
  - rewrite !map_app. cbn [map app]. rewrite !aget_app2 by (rewrite map_length; auto). rewrite !map_length, Nat.sub_diag. reflexivity.
  - specialize (IH (u ++ [a])). rewrite app_length in IH. cbn [length] in IH. rewrite Nat.add_1_r in IH. rewrite <- app_assoc in IH. cbn [app] in *. exact IH.
Qed.

(** arrays made from a sorted list of the entries *)
Theorem holds_sorted m n (es es' : list (ent V)) p : fits m n es -> Permutation es' es -> by_columns es' -> length p = S n -> (forall c, c <= n -> p.[c] = cntlt es c) ->
  holds n es p (map (fun e => Z.of_nat (erow e)) es') (map eval es').
Proof.
  intros HF HP HS Lp Hp. pose proof (Permutation_length HP) as EL. unfold holds. split; [auto|]. split; [|split; [|split; [|split; [|split]]]].
  - rewrite Hp by lia. apply cntlt_0.
  - rewrite Hp by lia. now apply (cntlt_all m).
  - intros c Hc. rewrite !Hp by lia. apply cntlt_mono. lia.
  - now rewrite map_length.
  - now rewrite map_length.
  - intros c Hc. rewrite !Hp by lia. destruct (sorted_parts es' c HS) as (l & E & EC). rewrite !(cntlt_perm _ _ _ (Permutation_sym HP)). rewrite EC.
    replace (cntlt es' c + length (in_col es' c) - cntlt es' c) with (length (in_col es' c)) by lia. set (u := filter (fun e => ecol e <? c) es') in E. change (cntlt es' c) with (length u). set (v := in_col es' c) in *. assert (HV : Permutation v (in_col es c)) by (apply in_col_perm, HP).
    clearbody u v. rewrite E, map_window. now apply Permutation_map.
Qed.

(** conversely the sizes of the columns are determined *)
Lemma holds_count n (es : list (ent V)) p i x c : holds n es p i x -> c < n -> p.[S c] - p.[c] = length (in_col es c).
Proof.
  intros (_ & _ & _ & _ & _ & _ & H) Hc. specialize (H c Hc). apply Permutation_length in H. now rewrite !map_length, seq_length in H.
Qed.
End Sorted.

Section RM.
Context {V : Type} {DV : Dflt V}.
Variables (zero : V) (ofZ : Z -> V) (m n : nat) (fs : list (nat * nat * tok (V := V))).
Let es : list (ent V) := map (file_ent ofZ) fs.
Let nnz := length fs.
Let J := map zcol fs.

Lemma J_col k : k < nnz -> J.[k] = Z.of_nat (map ecol es).[k].
Proof.
  intros Hk. unfold J, es, nnz in *. rewrite map_map. clear J es. revert k Hk. induction fs as [|[[r c] t] l IH]; intros k Hk; cbn [length] in Hk; [lia|].
  destruct k as [|k]; [reflexivity|]. cbn [map]. rewrite !aget_cons_S. apply IH. lia.
Qed.

Lemma LJ : length J = nnz. Proof. unfold J. apply map_length. Qed.
Lemma Les : length es = nnz. Proof. unfold es. apply map_length. Qed.

Lemma bl_sorted : sorted_lt (bl nnz J 0).
Proof. unfold bl. apply sorted_lt_filter, sorted_lt_seq. Qed.

Lemma bl_In k : In k (bl nnz J 0) <-> k < nnz /\ (k = 0 \/ (map ecol es).[k] <> (map ecol es).[k - 1]).
Proof.
  unfold bl. rewrite filter_In, in_seq. unfold bnd. split.
  - intros [H1 H2]. split; [lia|]. destruct (Nat.eq_dec k 0) as [|Hk]; auto. right. rewrite !J_col in H2 by lia. lia.
  - intros [H1 H2]. split; [lia|]. destruct (Nat.eq_dec k 0) as [->|Hk]; auto. rewrite !J_col by lia. lia.
Qed.

Hypothesis (HN : 0 < nnz) (HF : fits m n es) (HS : by_columns es).

Lemma col_lt k : k < nnz -> (map ecol es).[k] < n.
Proof.
  intros Hk. assert (H : In (map ecol es).[k] (map ecol es)) by (apply aget_In; rewrite map_length, Les; auto).
  apply in_map_iff in H. destruct H as (e & <- & H). apply HF in H. tauto.
Qed.

Lemma col_mono k k' : k <= k' -> k' < nnz -> (map ecol es).[k] <= (map ecol es).[k'].
Proof. intros H1 H2. destruct (Nat.eq_dec k k') as [->|]; auto. apply HS; [lia|]. now rewrite map_length, Les. Qed.

Lemma bl_cols k k' : In k (bl nnz J 0) -> In k' (bl nnz J 0) -> k < k' -> (map ecol es).[k] < (map ecol es).[k'].
Proof.
  intros H1 H2 Hk. apply bl_In in H1, H2. destruct H2 as [H2 [E|E]]; [lia|]. pose proof (col_mono k (k' - 1)). pose proof (col_mono (k' - 1) k'). lia.
Qed.

Lemma bl_len : length (bl nnz J 0) <= n.
Proof.
  rewrite <- (map_length (fun k => (map ecol es).[k])), <- (seq_length n 0). apply NoDup_incl_length.
  - apply sorted_lt_NoDup, sorted_lt_map; [apply bl_sorted|]. intros a b Ha Hb. apply bl_cols; auto.
  - intros x H. apply in_map_iff in H. destruct H as (k & <- & H). apply bl_In in H. apply in_seq. pose proof (col_lt k). lia.
Qed.

Lemma bl_0 : (bl nnz J 0).[0] = 0 /\ 0 < length (bl nnz J 0).
Proof. unfold bl. rewrite Nat.sub_0_r. destruct nnz eqn:E; [lia|]. cbn [seq filter bnd Nat.eqb orb length]. split; [reflexivity|lia]. Qed.

Lemma n_pos : 0 < n.
Proof. pose proof (col_lt 0). lia. Qed.

Definition rm_p : list nat := upd (wrs (repeat 0 (n + 1)) 0 (bl nnz J 0)) n nnz.

Lemma read_mtx_res sym rest : read_mtx zero ofZ m n nnz sym (file_toks fs ++ rest) =
  Ok (Some (mkMtx m n nnz (if sym then -1 else 0)%Z rm_p (map (fun e => Z.of_nat (erow e)) es) (map eval es))).
Proof.
  unfold read_mtx. pose proof n_pos. replace (0 <? n) with true by lia. unfold nnz at 1. rewrite read_coo_ok. cbn [bind]. fold J. rewrite run_starts_eq by apply LJ.
  rewrite repeat_length. pose proof bl_len. replace (length (bl nnz J 0) <=? n + 1) with true by lia. cbn [bind]. rewrite wr_ok by (rewrite wrs_length, repeat_length; lia). cbn [bind].
  unfold es. rewrite !map_map. f_equal. f_equal. f_equal; apply map_ext; intros [[r c] t]; reflexivity.
Qed.

Lemma rm_p_len : length rm_p = S n.
Proof. unfold rm_p. rewrite upd_length, wrs_length, repeat_length. lia. Qed.

Lemma rm_p_get c : rm_p.[c] = if c =? n then nnz else if c <? length (bl nnz J 0) then (bl nnz J 0).[c] else 0.
Proof.
  unfold rm_p. pose proof bl_len. destruct (Nat.eqb_spec c n) as [->|]; [apply aget_upd_eq; rewrite wrs_length, repeat_length; lia|]. rewrite aget_upd_ne by auto.
  destruct (Nat.ltb_spec c (length (bl nnz J 0))).
  - apply (aget_wrs_in (bl nnz J 0) (repeat 0 (n + 1)) 0 c); auto. rewrite repeat_length; lia.
  - rewrite aget_wrs_out by lia. destruct (Nat.lt_ge_cases c (n + 1)); [now rewrite aget_repeat|]. unfold aget. apply nth_overflow. rewrite repeat_length. lia.
Qed.

(** every column has an entry: the runs are the columns *)
Lemma bl_full : (forall c, c < n -> in_col es c <> []) -> bl nnz J 0 = map (cntlt es) (seq 0 n).
Proof.
  intros HC. assert (Hst : forall c c', c < c' -> c' <= n -> cntlt es c < cntlt es c').
  { intros c c' H1 H2. pose proof (cntlt_mono es (S c) c'). rewrite cntlt_step in H. specialize (HC c). destruct (in_col es c); [exfalso; apply HC; auto; lia|]. cbn [length] in H. lia. }
  apply sorted_lt_ext; [apply bl_sorted|apply sorted_lt_map; [apply sorted_lt_seq|]|].
  { intros a b Ha Hb Hab. apply in_seq in Ha, Hb. apply Hst; lia. }
  assert (Hpos : forall k c, k < nnz -> ((map ecol es).[k] < c <-> k < cntlt es c)).
  { intros k c Hk. assert (A : es = filter (fun e => ecol e <? c) es ++ filter (fun e => negb (ecol e <? c)) es) by (apply sorted_split; auto; intros; lia).
    unfold cntlt. rewrite A at 1. rewrite map_app. pose proof Les as LE. rewrite A, app_length in LE. destruct (Nat.lt_ge_cases k (length (filter (fun e => ecol e <? c) es))) as [Hl|Hl].
    - rewrite aget_app1 by (rewrite map_length; auto). split; auto. intros _.
      assert (H : In (map ecol (filter (fun e => ecol e <? c) es)).[k] (map ecol (filter (fun e => ecol e <? c) es))) by (apply aget_In; rewrite map_length; auto).
      apply in_map_iff in H. destruct H as (e & <- & H). apply filter_In in H. lia.
    - rewrite aget_app2 by (rewrite map_length; auto). rewrite map_length. split; [|lia]. intros H0.
      set (k' := k - length (filter (fun e => ecol e <? c) es)) in *.
      assert (H : In (map ecol (filter (fun e => negb (ecol e <? c)) es)).[k'] (map ecol (filter (fun e => negb (ecol e <? c)) es))) by (apply aget_In; rewrite map_length; lia).
      apply in_map_iff in H. destruct H as (e & E & H). apply filter_In in H. lia. }
  intros k. rewrite bl_In, in_map_iff. split.
  - intros [H1 H2]. exists (map ecol es).[k]. pose proof (col_lt k H1). split; [|apply in_seq; lia].
    pose proof (Hpos k (map ecol es).[k] H1). destruct H2 as [->|H2]; [lia|]. destruct (Nat.eq_dec k 0) as [->|]; [lia|].
    pose proof (col_mono (k - 1) k). pose proof (Hpos (k - 1) (map ecol es).[k]). lia.
  - intros (c & E & Hc). apply in_seq in Hc. pose proof (Hst c n). rewrite (cntlt_all m n) in H by auto. rewrite Les in H. split; [lia|].
    destruct (Nat.eq_dec k 0) as [|Hk]; auto. right. pose proof (Hpos k c). pose proof (Hpos (k - 1) c). lia.
Qed.

Theorem read_mtx_iff : holds n es rm_p (map (fun e => Z.of_nat (erow e)) es) (map eval es) <-> (forall c, c < n -> in_col es c <> []) \/ (forall e, In e es -> ecol e = n - 1).
Proof.
  pose proof n_pos as Hn. pose proof bl_len as HL. pose proof bl_0 as [HB0 HB1]. pose proof bl_sorted as BS. split.
  - intros H. pose proof H as (_ & _ & _ & Hm & _). destruct (Nat.eq_dec (length (bl nnz J 0)) n) as [E|E].
    + left. intros c Hc HE. pose proof (holds_count _ _ _ _ _ _ H Hc) as HC. rewrite HE in HC. cbn [length] in HC. rewrite !rm_p_get in HC.
      replace (c =? n) with false in HC by lia. replace (c <? length (bl nnz J 0)) with true in HC by lia. destruct (Nat.eqb_spec (S c) n) as [En|En].
      * assert (In (bl nnz J 0).[c] (bl nnz J 0)) as H0 by (apply aget_In; lia). apply bl_In in H0. lia.
      * replace (S c <? length (bl nnz J 0)) with true in HC by lia. specialize (BS c (S c)). lia.
    + destruct (Nat.eq_dec (length (bl nnz J 0)) 1) as [E1|E1].
      * right. intros e He. destruct (HF e He) as [_ Hc]. destruct (Nat.eq_dec (ecol e) (n - 1)) as [|Hne]; auto. exfalso.
        pose proof (holds_count _ _ _ _ _ _ H Hc) as HC. assert (G : length (in_col es (ecol e)) = 0).
        { rewrite <- HC. rewrite !rm_p_get. replace (S (ecol e) =? n) with false by lia. rewrite E1. replace (S (ecol e) <? 1) with false by lia. lia. }
        apply length_zero_iff_nil in G. assert (In e (in_col es (ecol e))) as K by (apply filter_In; split; auto; lia). rewrite G in K. destruct K.
      * exfalso. set (K := length (bl nnz J 0)) in *. specialize (Hm (K - 1)). rewrite !rm_p_get in Hm. fold K in Hm.
        replace (K - 1 =? n) with false in Hm by lia. replace (K - 1 <? K) with true in Hm by lia. replace (S (K - 1) =? n) with false in Hm by lia. replace (S (K - 1) <? K) with false in Hm by lia.
        pose proof (BS 0 (K - 1)). lia.
  - intros H. apply (holds_sorted m); auto; [apply rm_p_len|]. intros c Hc. rewrite rm_p_get. destruct H as [H|H].
    + destruct (Nat.eqb_spec c n) as [->|]; [rewrite (cntlt_all m n) by auto; symmetry; apply Les|].
      assert (EL : length (bl nnz J 0) = n) by (rewrite bl_full by auto; now rewrite map_length, seq_length). rewrite EL. replace (c <? n) with true by lia.
      rewrite bl_full by auto. apply aget_map_seq. lia.
    + destruct (Nat.eqb_spec c n) as [->|]; [rewrite (cntlt_all m n) by auto; symmetry; apply Les|].
      replace (cntlt es c) with 0.
      2:{ symmetry. unfold cntlt. apply length_zero_iff_nil. destruct (filter (fun e => ecol e <? c) es) as [|e l] eqn:Ef; auto. assert (K : In e (e :: l)) by (left; auto). rewrite <- Ef in K. apply filter_In in K. destruct K as [K1 K2]. apply H in K1. lia. }
      assert (EL : length (bl nnz J 0) = 1).
      { destruct (Nat.eq_dec (length (bl nnz J 0)) 1) as [|Hne]; auto. exfalso. assert (K0 : In (bl nnz J 0).[0] (bl nnz J 0)) by (apply aget_In; lia). assert (K1 : In (bl nnz J 0).[1] (bl nnz J 0)) by (apply aget_In; lia).
        pose proof (bl_cols _ _ K0 K1) as HC. specialize (BS 0 1). assert (G : forall k, k < nnz -> (map ecol es).[k] = n - 1).
        { intros k Hk. assert (Q : In (map ecol es).[k] (map ecol es)) by (apply aget_In; rewrite map_length, Les; auto). apply in_map_iff in Q. destruct Q as (e & <- & Q). auto. }
        apply bl_In in K0, K1. rewrite !G in HC by tauto. lia. }
      rewrite EL. destruct (Nat.ltb_spec c 1); auto. replace c with 0 by lia. auto.
Qed.
End RM.
