(** Proofs about read_triplets_real and compress_triplets_to_csc. *)
From Coq Require Import ZifyBool ZifyNat Sorting.Sorted.
From Verif Require Import Base Lib Lib2 M_Mat M_IO SpecIO L_Util P_Tree L_Sparse4 L_Super3 L_IO L_IO2.

Section Comp.
Context {V : Type} {DV : Dflt V}.
Variables (zero : V) (ofZ : Z -> V).

(** the comparison passed to std::sort *)
Definition tlt (a b : trip (V := V)) : bool := (tcol a <? tcol b)%Z || ((tcol a =? tcol b)%Z && (trow a <? trow b)%Z).
Definition sorts (sortp : list (trip (V := V)) -> list trip) : Prop :=
  forall l, Permutation (sortp l) l /\ StronglySorted (fun a b => tlt b a = false) (sortp l).

Definition ofE (e : ent V) : trip := (Z.of_nat (erow e), Z.of_nat (ecol e), eval e).
Definition toE (t : trip) : ent V := (Z.to_nat (trow t), Z.to_nat (tcol t), tvl t).

Lemma toE_ofE e : toE (ofE e) = e.
Proof. destruct e as [[r c] v]. unfold toE, ofE, erow, ecol, eval, trow, tcol, tvl. cbn [fst snd]. now rewrite !Nat2Z.id. Qed.

(** the rows of a column never decrease *)
Definition rows_up (es : list (ent V)) : Prop := forall c, sorted_le (map erow (in_col es c)).

Lemma sorts_ents sortp es : sorts sortp -> exists es', sortp (map ofE es) = map ofE es' /\ Permutation es' es /\ by_columns es' /\ rows_up es'.
Proof.
  intros HS. destruct (HS (map ofE es)) as [HP HO]. exists (map toE (sortp (map ofE es))).
  assert (E : map ofE (map toE (sortp (map ofE es))) = sortp (map ofE es)).
  { rewrite map_map. rewrite <- (map_id (sortp (map ofE es))) at 2. apply map_ext_in. intros t Ht. apply (Permutation_in _ HP) in Ht. apply in_map_iff in Ht. destruct Ht as (e & <- & _). now rewrite toE_ofE. }
  split; [auto|]. split.
  { apply (Permutation_map toE) in HP. rewrite map_map in HP. rewrite (map_ext _ id) in HP by apply toE_ofE. now rewrite map_id in HP. }
  set (es' := map toE (sortp (map ofE es))) in *. clearbody es'. rewrite <- E in HO. clear -HO. induction es' as [|e l IH].
  { split; [apply sorted_le_nil|]. intros c. apply sorted_le_nil. }
  cbn [map] in HO. apply StronglySorted_inv in HO. destruct HO as [H1 H2]. destruct (IH H1) as [I1 I2]. rewrite Forall_forall in H2.
  assert (K : forall e', In e' l -> ecol e <= ecol e' /\ (ecol e = ecol e' -> erow e <= erow e')).
  { intros e' H. specialize (H2 (ofE e') (in_map ofE _ _ H)). unfold tlt, ofE, trow, tcol in H2. cbn [fst snd] in H2. lia. }
  split.
  - apply by_columns_cons. split; auto. intros e' H. apply K; auto.
  - intros c. unfold in_col. cbn [filter]. destruct (Nat.eqb_spec (ecol e) c) as [Ec|]; [|apply I2]. cbn [map]. apply sorted_le_cons. split; [|apply I2].
    intros y Hy. apply in_map_iff in Hy. destruct Hy as (e' & <- & H). apply filter_In in H. apply K; [tauto|lia].
Qed.

(** * reading *)

Definition rt_body (one : V) (read_val : bool) : nat -> list trip * list tok -> res (list trip * list tok) :=
  (fun _ '(out, toks) =>
      '(r, toks) <- get_int toks ;; '(c, toks) <- get_int toks ;;
      let '(v, toks) := if read_val then get_val zero ofZ toks else (one, toks) in
      Ok ((out ++ [((r - 1)%Z, (c - 1)%Z, v)])%list, toks)).

Lemma rt_loop one fs : forall k i out rest, for_n (length fs + k) i (rt_body one true) (out, file_toks fs ++ rest) =
  for_n k (i + length fs) (rt_body one true) (out ++ map ofE (map (file_ent ofZ) fs), rest).
Proof.
  induction fs as [|[[r c] t] fs IH]; intros k i out rest; [cbn [length file_toks flat_map map app Nat.add]; now rewrite app_nil_r, Nat.add_0_r|].
  cbn [length Nat.add for_n file_toks flat_map ent_toks app]. unfold rt_body at 1. cbn [get_int get_val tint bind]. change (flat_map ent_toks fs) with (file_toks fs).
  rewrite IH. replace (i + S (length fs)) with (S i + length fs) by lia. f_equal. f_equal. rewrite <- app_assoc. f_equal. cbn [map app]. f_equal.
  unfold ofE, file_ent, erow, ecol, eval. cbn [fst snd]. f_equal. f_equal; lia.
Qed.

Lemma read_triplets_unf one nnz rv toks : read_triplets_real zero ofZ one nnz rv toks = bind (for_n nnz 0 (rt_body one rv) ([], toks)) (fun st => Ok (fst st)).
Proof. unfold read_triplets_real, for_. rewrite Nat.sub_0_r. change (bind (for_n nnz 0 (rt_body one rv) ([], toks)) (fun '(out, _) => Ok out) = bind (for_n nnz 0 (rt_body one rv) ([], toks)) (fun st => Ok (fst st))). destruct (for_n nnz 0 (rt_body one rv) ([], toks)) as [[o t]|]; reflexivity. Qed.

Lemma read_triplets_ok one fs rest : read_triplets_real zero ofZ one (length fs) true (file_toks fs ++ rest) = Ok (map ofE (map (file_ent ofZ) fs)).
Proof. rewrite read_triplets_unf. rewrite <- (Nat.add_0_r (length fs)). rewrite rt_loop. cbn [for_n bind app fst]. reflexivity. Qed.

(** a pattern file: two literals for every entry *)
Definition pat_toks (ps : list (nat * nat)) : list (tok (V := V)) := flat_map (fun '(r, c) => [TInt (Z.of_nat r + 1); TInt (Z.of_nat c + 1)]) ps.
Definition pat_ents (one : V) (ps : list (nat * nat)) : list (ent V) := map (fun '(r, c) => (r, c, one)) ps.

Lemma rt_loop_pat one ps : forall k i out rest, for_n (length ps + k) i (rt_body one false) (out, pat_toks ps ++ rest) =
  for_n k (i + length ps) (rt_body one false) (out ++ map ofE (pat_ents one ps), rest).
Proof.
  induction ps as [|[r c] ps IH]; intros k i out rest; [cbn [length pat_toks pat_ents flat_map map app Nat.add]; now rewrite app_nil_r, Nat.add_0_r|].
  cbn [length Nat.add for_n pat_toks flat_map app]. unfold rt_body at 1. cbn [get_int get_val tint bind].
  match goal with |- context [(_, ?x ++ rest)] => change x with (pat_toks ps) end.
  rewrite IH. replace (i + S (length ps)) with (S i + length ps) by lia. f_equal. f_equal. rewrite <- app_assoc. f_equal. cbn [map app pat_ents]. f_equal.
  unfold ofE, erow, ecol, eval. cbn [fst snd]. f_equal. f_equal; lia.
Qed.

Lemma read_triplets_pat one ps rest : read_triplets_real zero ofZ one (length ps) false (pat_toks ps ++ rest) = Ok (map ofE (pat_ents one ps)).
Proof. rewrite read_triplets_unf. rewrite <- (Nat.add_0_r (length ps)). rewrite rt_loop_pat. cbn [for_n bind app fst]. reflexivity. Qed.

(** the file ends early: the remaining entries get position -1 *)
Lemma rt_empty one rv : forall k i out, exists l, for_n k i (rt_body one rv) (out, []) = Ok (out ++ l, []) /\ length l = k /\ forall t, In t l -> tcol t = (-1)%Z.
Proof.
  induction k as [|k IH]; intros i out; [exists []; cbn [for_n]; rewrite app_nil_r; split; auto; split; auto; intros t []|].
  cbn [for_n]. unfold rt_body at 1. cbn [get_int get_val bind].
  destruct (IH (S i) (out ++ [((0 - 1)%Z, (0 - 1)%Z, if rv then zero else one)])) as (l & E & L & H).
  exists (((0 - 1)%Z, (0 - 1)%Z, if rv then zero else one) :: l). split.
  - destruct rv; cbn [bind]; rewrite E, <- app_assoc; reflexivity.
  - split; [cbn [length]; lia|]. intros t [<-|Ht]; auto.
Qed.

Lemma read_triplets_short one fs nnz : length fs < nnz -> exists tv t, read_triplets_real zero ofZ one nnz true (file_toks fs) = Ok tv /\ length tv = nnz /\ In t tv /\ tcol t = (-1)%Z.
Proof.
  intros H. assert (exists d, nnz = length fs + d /\ 0 < d) as (d & -> & Hd) by (exists (nnz - length fs); lia). clear H. rewrite read_triplets_unf. rewrite <- (app_nil_r (file_toks fs)), rt_loop.
  destruct (rt_empty one true d (0 + length fs) ([] ++ map ofE (map (file_ent ofZ) fs))) as (l & -> & L & HL). cbn [bind app fst]. destruct l as [|t l]; [cbn [length] in L; lia|].
  exists (map ofE (map (file_ent ofZ) fs) ++ t :: l), t. split; [reflexivity|]. split; [rewrite app_length, !map_length; lia|]. split; [apply in_or_app; right; left; auto|apply HL; left; auto].
Qed.

(** * counting *)
Lemma rd_trip (l : list (trip (V := V))) k : k < length l -> exists t, rd l k = Ok t /\ nth_error l k = Some t.
Proof. intros H. unfold rd. destruct (nth_error l k) eqn:E; [eauto|]. apply nth_error_None in E. lia. Qed.

Definition cnt_body (tv : list (trip (V := V))) : nat -> list nat -> res (list nat) :=
  fun i count => t <- rd tv i ;; c <- rdZ count (tcol t) ;; wrZ count (tcol t) (S c).

Lemma count_bad n tv t : In t tv -> (tcol t < 0 \/ Z.of_nat n <= tcol t)%Z -> for_ 0 (length tv) (cnt_body tv) (repeat 0 n) = Err OOB.
Proof.
  intros HI HB. apply In_nth_error in HI. destruct HI as [q Hq]. assert (Hl : q < length tv) by (apply nth_error_Some; congruence).
  assert (G : forall k i count, i + k = length tv -> length count = n -> i <= q -> for_n k i (cnt_body tv) count = Err OOB).
  { induction k as [|k IH]; intros i count Hk Lc Hi; [lia|]. cbn [for_n]. unfold cnt_body at 1. unfold rd at 1. destruct (nth_error tv i) as [t'|] eqn:E; [|apply nth_error_None in E; lia]. cbn [bind].
    unfold rdZ. destruct (Z.ltb_spec (tcol t') 0); [reflexivity|]. destruct (Nat.lt_ge_cases (Z.to_nat (tcol t')) (length count)) as [Hc|Hc]; [|rewrite rd_oob by lia; reflexivity].
    rewrite rd_ok by lia. cbn [bind]. unfold wrZ. destruct (Z.ltb_spec (tcol t') 0); [lia|]. rewrite wr_ok by lia. cbn [bind]. destruct (Nat.eq_dec i q) as [->|].
    - rewrite Hq in E. injection E as <-. lia.
    - apply IH; try rewrite upd_length; lia. }
  unfold for_. apply G; try lia. apply repeat_length.
Qed.

Lemma nth_error_ofE es k t : nth_error (map ofE es) k = Some t -> exists e, nth_error es k = Some e /\ t = ofE e.
Proof. rewrite nth_error_map. destruct (nth_error es k) eqn:E; cbn [option_map]; intros H; [injection H as <-; eauto|discriminate]. Qed.

Lemma count_ok m n es : fits m n es -> exists count, for_ 0 (length es) (cnt_body (map ofE es)) (repeat 0 n) = Ok count /\ length count = n /\ forall c, c < n -> count.[c] = length (in_col es c).
Proof.
  intros HF. apply wp_ok. apply (wp_for (fun i count => length count = n /\ forall c, c < n -> count.[c] = length (in_col (firstn i es) c))); [lia| | |].
  - split; [apply repeat_length|]. intros c Hc. rewrite aget_repeat by auto. reflexivity.
  - intros i count [_ Hi] [L H]. unfold cnt_body. destruct (nth_error es i) as [e|] eqn:Ee; [|apply nth_error_None in Ee; lia].
    unfold rd at 1. rewrite nth_error_map, Ee. cbn [option_map bind]. assert (Hc : ecol e < n) by (apply HF; eapply nth_error_In; eauto).
    change (tcol (ofE e)) with (Z.of_nat (ecol e)). wp1. apply rdZ_wp; [lia|lia|]. apply wrZ_wp; [lia|lia|]. rewrite Nat2Z.id.
    assert (EF : firstn (S i) es = firstn i es ++ [e]). { clear -Ee. revert i Ee. induction es as [|a l IH]; intros [|i] Ee; cbn [nth_error] in Ee; try discriminate; [injection Ee as ->; reflexivity|]. cbn [firstn app]. f_equal. now apply IH. }
    split; [now rewrite upd_length|]. intros c Hc'. rewrite EF. unfold in_col. rewrite filter_app, app_length. cbn [filter].
    destruct (Nat.eq_dec c (ecol e)) as [->|Hne].
    + rewrite aget_upd_eq by lia. rewrite Nat.eqb_refl, H by auto. unfold in_col. cbn [length]. lia.
    + rewrite aget_upd_ne by auto. destruct (Nat.eqb_spec (ecol e) c); [lia|]. rewrite H by auto. unfold in_col. cbn [length]. lia.
  - intros count [L H]. split; auto. intros c Hc. rewrite H by auto. now rewrite firstn_all.
Qed.

(** * placing *)

(** column [j] of the result: an empty column gets a zero on the diagonal if asked *)
Definition colx (add : bool) (es : list (ent V)) (j : nat) : list (ent V) :=
  match in_col es j with [] => if add then [(j, j, zero)] else [] | l => l end.

Definition pl_body (add : bool) (count : list nat) : nat -> list nat * list trip -> res (list nat * list trip) :=
  (fun j '(p, tv) =>
      c <- rd count j ;; a <- rd p j ;;
      if (c =? 0) && add then
        tv <- insert_at tv a (Z.of_nat j, Z.of_nat j, zero) ;; p <- wr p (S j) (a + 1) ;; Ok (p, tv)
      else p <- wr p (S j) (a + c) ;; Ok (p, tv)).

Lemma ge_split (es : list (ent V)) j : by_columns es -> filter (fun e => negb (ecol e <? j)) es = in_col es j ++ filter (fun e => negb (ecol e <? S j)) es.
Proof.
  intros HS. assert (H : by_columns (filter (fun e => negb (ecol e <? j)) es)).
  { clear -HS. induction es as [|e es IH]; auto. apply by_columns_cons in HS. destruct HS as [H1 H2]. cbn [filter]. destruct (negb (ecol e <? j)); auto.
    apply by_columns_cons. split; auto. intros e' H. apply filter_In in H. apply H1; tauto. }
  rewrite (sorted_split (fun e => ecol e <? S j) (filter (fun e => negb (ecol e <? j)) es)) at 1; auto; [|intros; lia]. rewrite !filter_filter. unfold in_col. f_equal; apply filter_ext; intros a; lia.
Qed.

Lemma place_ok m n (es : list (ent V)) count add : fits m n es -> by_columns es -> length count = n -> (forall c, c < n -> count.[c] = length (in_col es c)) -> forall p0, length p0 = S n -> p0.[0] = 0 ->
  exists p, for_ 0 n (pl_body add count) (p0, map ofE es) = Ok (p, map ofE (flat_map (colx add es) (seq 0 n))) /\ length p = S n /\
    forall c, c <= n -> p.[c] = length (flat_map (colx add es) (seq 0 c)).
Proof.
  intros HF HS Lc Hc p0 Lp P0.
  assert (G : wp (for_ 0 n (pl_body add count) (p0, map ofE es)) (fun st => snd st = map ofE (flat_map (colx add es) (seq 0 n)) /\ length (fst st) = S n /\
    forall c, c <= n -> (fst st).[c] = length (flat_map (colx add es) (seq 0 c)))).
  { apply (wp_for (fun j st => snd st = map ofE (flat_map (colx add es) (seq 0 j) ++ filter (fun e => negb (ecol e <? j)) es) /\ length (fst st) = S n /\
      forall c, c <= j -> (fst st).[c] = length (flat_map (colx add es) (seq 0 c)))); [lia| | |].
    - cbn [fst snd seq flat_map app]. split; [f_equal; clear; induction es as [|e l IH]; auto; cbn [filter]; replace (negb (ecol e <? 0)) with true by lia; f_equal; auto|]. split; auto. intros c Hc'. replace c with 0 by lia. auto.
    - intros j [p tv] [_ Hj] (E & L & H). cbn [fst snd] in *. unfold pl_body. wp1. wp1; [lia|]. wp1. wp1; [lia|].
      rewrite seq_S, flat_map_app. cbn [Nat.add flat_map]. rewrite app_nil_r. rewrite (ge_split es j HS) in E.
      assert (H' : forall v, v = length (flat_map (colx add es) (seq 0 j) ++ colx add es j) -> forall c, c <= S j -> (upd p (S j) v).[c] = length (flat_map (colx add es) (seq 0 c))).
      { intros v -> c Hcj. destruct (Nat.eq_dec c (S j)) as [->|]; [rewrite aget_upd_eq by lia; rewrite seq_S, flat_map_app; cbn [Nat.add flat_map]; now rewrite app_nil_r|]. rewrite aget_upd_ne by auto. apply H. lia. }
      rewrite Hc by auto. rewrite (H j) by lia. pose proof (eq_refl (colx add es j)) as EX. unfold colx in EX at 2. destruct (in_col es j) as [|e l] eqn:EC; cbn [length Nat.eqb andb].
      + destruct add; rewrite EX in *.
        * unfold insert_at. rewrite E, map_length, app_length. cbn [app]. rewrite (proj2 (Nat.leb_le _ _)) by lia. cbn [bind]. wp1. wp1; [lia|]. cbn [wp fst snd].
          split; [|split; [now rewrite upd_length|apply H'; rewrite app_length; reflexivity]].
          rewrite <- app_assoc, !map_app. cbn [app map]. rewrite <- (map_length ofE). rewrite firstn_app, skipn_app, firstn_all, skipn_all, Nat.sub_diag. cbn [firstn skipn app]. now rewrite app_nil_r.
        * wp1. wp1; [lia|]. cbn [wp fst snd]. split; [rewrite app_nil_r; exact E|]. split; [now rewrite upd_length|]. apply H'. rewrite app_length. cbn [length]. lia.
      + rewrite EX in *. wp1. wp1; [lia|]. cbn [wp fst snd]. split; [rewrite <- app_assoc; exact E|]. split; [now rewrite upd_length|]. apply H'. rewrite app_length. cbn [length]. lia.
    - intros [p tv] (E & L & H). cbn [fst snd] in *. split; auto. rewrite E. f_equal. replace (filter (fun e => negb (ecol e <? n)) es) with (@nil (ent V)); [now rewrite app_nil_r|].
      symmetry. clear -HF. induction es as [|e l IH]; auto. cbn [filter]. destruct (HF e) as [_ H]; [left; auto|]. replace (negb (ecol e <? n)) with false by lia. apply IH. intros x Hx. apply HF. right; auto. }
  apply wp_ok in G. destruct G as ([p tv] & E & G). cbn [fst snd] in G. destruct G as (-> & G1 & G2). exists p. auto.
Qed.

Lemma copy_ok tv nnz : nnz <= length tv -> for_ 0 nnz (fun k '(Ri, X) => t <- rd tv k ;; Ri <- wr Ri k (trow t) ;; X <- wr X k (tvl t) ;; Ok (Ri, X)) (repeat 0%Z nnz, repeat zero nnz) =
  Ok (map trow (firstn nnz tv), map (@tvl V) (firstn nnz tv)).
Proof.
  intros H.
  assert (G : forall k i l Ri X, length l = k -> (forall q, q < k -> nth_error tv (i + q) = nth_error l q) -> i + k <= length Ri -> i + k <= length X ->
    for_n k i (fun k '(Ri, X) => t <- rd tv k ;; Ri <- wr Ri k (trow t) ;; X <- wr X k (tvl t) ;; Ok (Ri, X)) (Ri, X) = Ok (wrs Ri i (map trow l), wrs X i (map (@tvl V) l))).
  { induction k as [|k IH]; intros i l Ri X Hl Hn H1 H2; [destruct l; [reflexivity|discriminate]|]. destruct l as [|t l]; [discriminate|]. cbn [length] in Hl. injection Hl as Hl.
    cbn [for_n]. pose proof (Hn 0 ltac:(lia)) as H0. rewrite Nat.add_0_r in H0. unfold rd at 1. rewrite H0. cbn [nth_error bind]. rewrite wr_ok by lia. cbn [bind]. rewrite wr_ok by lia. cbn [bind].
    rewrite (IH (S i) l); auto; try (rewrite upd_length; lia). intros q Hq. specialize (Hn (S q)). rewrite <- Nat.add_succ_comm in Hn. cbn [nth_error] in Hn. apply Hn. lia. }
  unfold for_. rewrite (G _ _ (firstn nnz tv)); try (rewrite repeat_length; lia).
  - rewrite !wrs_all; auto; rewrite repeat_length, map_length, firstn_length; lia.
  - rewrite firstn_length; lia.
  - intros q Hq. cbn [Nat.add]. clear -Hq. rewrite Nat.sub_0_r in Hq. revert nnz q Hq. induction tv as [|a l IH]; intros [|n] [|q] Hq; try lia; cbn [firstn nth_error]; auto. apply IH. lia.
Qed.

(** the entries with the added zeros *)
Definition with_diags (add : bool) (n : nat) (es : list (ent V)) : list (ent V) :=
  es ++ if add then map (fun j => (j, j, zero)) (filter (fun j => match in_col es j with [] => true | _ => false end) (seq 0 n)) else [].

Lemma flat_colx m n add (es : list (ent V)) : fits m n es -> by_columns es ->
  Permutation (flat_map (colx add es) (seq 0 n)) (with_diags add n es).
Proof.
  intros HF HS. assert (G : forall k, k <= n -> Permutation (flat_map (colx add es) (seq 0 k)) (filter (fun e => ecol e <? k) es ++
      if add then map (fun j => (j, j, zero)) (filter (fun j => match in_col es j with [] => true | _ => false end) (seq 0 k)) else [])).
  { induction k as [|k IH]; intros Hk.
    - cbn [seq flat_map filter map]. replace (filter (fun e => ecol e <? 0) es) with (@nil (ent V)); [destruct add; constructor|]. clear. induction es; auto.
    - rewrite seq_S, flat_map_app, filter_app, map_app. cbn [Nat.add flat_map filter]. rewrite app_nil_r. specialize (IH ltac:(lia)).
      assert (EF : Permutation (filter (fun e => ecol e <? S k) es) (filter (fun e => ecol e <? k) es ++ in_col es k)).
      { clear. unfold in_col. induction es as [|e l IH]; auto. cbn [filter]. destruct (Nat.ltb_spec (ecol e) (S k)), (Nat.ltb_spec (ecol e) k), (Nat.eqb_spec (ecol e) k); cbn [app]; try lia; auto.
        apply Permutation_cons_app; auto. }
      rewrite IH, EF. unfold colx. destruct (in_col es k) as [|e l].
      + rewrite app_nil_r. destruct add; cbn [map]; [rewrite <- app_assoc|rewrite !app_nil_r]; reflexivity.
      + destruct add; cbn [map]; rewrite ?app_nil_r; [|reflexivity]. rewrite <- !app_assoc. apply Permutation_app_head, Permutation_app_comm. }
  specialize (G n ltac:(lia)). unfold with_diags. rewrite G. apply Permutation_app_tail. replace (filter (fun e => ecol e <? n) es) with es; auto.
  clear -HF. induction es as [|e l IH]; auto. cbn [filter]. destruct (HF e) as [_ H]; [left; auto|]. replace (ecol e <? n) with true by lia. f_equal. apply IH. intros x Hx. apply HF. right; auto.
Qed.

Lemma by_columns_app l l' : by_columns (V := V) l -> by_columns l' -> (forall e e', In e l -> In e' l' -> ecol e <= ecol e') -> by_columns (l ++ l').
Proof.
  induction l as [|a l IH]; intros H1 H2 H3; auto. cbn [app]. apply by_columns_cons in H1. apply by_columns_cons. split.
  - intros e' H. apply in_app_or in H. destruct H as [H|H]; [apply H1; auto|apply H3; [left|]; auto].
  - apply IH; auto; [tauto|]. intros; apply H3; [right|]; auto.
Qed.

Lemma colx_col add es j e : In e (colx add es j) -> ecol e = j.
Proof.
  unfold colx. destruct (in_col es j) as [|a l] eqn:E.
  - destruct add; intros []; [subst; reflexivity|destruct H].
  - intros H. rewrite <- E in H. apply filter_In in H. lia.
Qed.

Lemma flat_colx_sorted add es k : by_columns (flat_map (colx add es) (seq 0 k)).
Proof.
  induction k as [|k IH]; [apply sorted_le_nil|]. rewrite seq_S, flat_map_app. cbn [Nat.add flat_map]. rewrite app_nil_r. apply by_columns_app; auto.
  - assert (G : forall l, (forall e, In e l -> ecol e = k) -> by_columns (V := V) l). { induction l as [|e l IHl]; intros H; [apply sorted_le_nil|]. apply by_columns_cons. split; [intros e' H'; rewrite (H e) by (left; auto); rewrite (H e') by (right; auto); auto|]. apply IHl. intros; apply H; right; auto. }
    apply G. intros e. apply colx_col.
  - intros e e' H H'. apply in_flat_map in H. destruct H as (j & Hj & H). apply in_seq in Hj. apply colx_col in H, H'. lia.
Qed.

Lemma in_col_app (l l' : list (ent V)) c : in_col (l ++ l') c = in_col l c ++ in_col l' c.
Proof. apply filter_app. Qed.

Lemma in_col_all (l : list (ent V)) c : (forall e, In e l -> ecol e = c) -> in_col l c = l.
Proof. unfold in_col. induction l as [|a l IH]; intros H; auto. cbn [filter]. rewrite (H a) by (left; auto). rewrite Nat.eqb_refl. f_equal. apply IH. intros; apply H; right; auto. Qed.

Lemma in_col_none (l : list (ent V)) c : (forall e, In e l -> ecol e <> c) -> in_col l c = [].
Proof. unfold in_col. induction l as [|a l IH]; intros H; auto. cbn [filter]. destruct (Nat.eqb_spec (ecol a) c) as [E|]; [exfalso; apply (H a); [left|]; auto|]. apply IH. intros; apply H; right; auto. Qed.

Lemma flat_colx_in_col add es c k : c < k -> in_col (flat_map (colx add es) (seq 0 k)) c = colx add es c.
Proof.
  induction k as [|k IH]; intros Hc; [lia|]. rewrite seq_S, flat_map_app, in_col_app. cbn [Nat.add flat_map]. rewrite app_nil_r. destruct (Nat.eq_dec c k) as [->|].
  - rewrite in_col_none, in_col_all; auto; [intros e; apply colx_col|]. intros e H. apply in_flat_map in H. destruct H as (j & Hj & H). apply in_seq in Hj. apply colx_col in H. lia.
  - rewrite IH by lia. rewrite (in_col_none (colx add es k)); [apply app_nil_r|]. intros e H. apply colx_col in H. lia.
Qed.

Lemma with_diags_perm m n add es es' : fits m n es -> Permutation es' es -> Permutation (with_diags add n es') (with_diags add n es).
Proof.
  intros HF HP. unfold with_diags. apply Permutation_app; auto. destruct add; auto. erewrite filter_ext; [reflexivity|]. intros j. cbn beta.
  pose proof (Permutation_length (in_col_perm es' es j HP)) as E. destruct (in_col es' j), (in_col es j); auto; discriminate.
Qed.

Lemma with_diags_fits m n add es : m >= n -> fits m n es -> fits m n (with_diags add n es).
Proof.
  intros Hm HF e H. unfold with_diags in H. apply in_app_or in H. destruct H as [H|H]; auto. destruct add; [|destruct H]. apply in_map_iff in H. destruct H as (j & <- & H). apply filter_In in H. destruct H as [H _]. apply in_seq in H. unfold erow, ecol. cbn [fst snd]. lia.
Qed.

Lemma compress_ok sortp m n es add : sorts sortp -> fits m n es -> 0 < n ->
  exists p ext, compress_triplets_to_csc zero sortp n (length es) (map ofE es) add = Ok (p, map (fun e => Z.of_nat (erow e)) (firstn (length es) ext), map eval (firstn (length es) ext), map ofE ext) /\
    length p = S n /\ (forall c, c <= n -> p.[c] = cntlt ext c) /\ Permutation ext (with_diags add n es) /\ by_columns ext /\ rows_up ext /\ fits (Nat.max m n) n ext.
Proof.
  intros HS HF Hn. destruct (sorts_ents sortp es HS) as (es' & E & HP & HB & HR). unfold compress_triplets_to_csc. rewrite map_length, Nat.eqb_refl. cbn [negb]. rewrite E.
  pose proof (Permutation_length HP) as EL. assert (HF' : fits m n es'). { intros e H. apply HF. eapply Permutation_in; eauto. }
  destruct (count_ok m n es' HF') as (count & Ec & Lc & Hc). rewrite <- EL. fold (cnt_body (map ofE es')). rewrite Ec. cbn [bind]. replace (0 <? n) with true by lia.
  rewrite wr_ok by (rewrite repeat_length; lia). cbn [bind]. fold (pl_body add count).
  destruct (place_ok m n es' count add HF' HB Lc Hc (upd (repeat 0 (n + 1)) 0 0)) as (p & Ep & Lp & Hp); [rewrite upd_length, repeat_length; lia|rewrite aget_upd_eq; [auto|rewrite repeat_length; lia]|].
  match goal with |- context [for_ 0 n ?f (upd (repeat 0 (n + 1)) 0 0, map ofE es')] => change (for_ 0 n f (upd (repeat 0 (n + 1)) 0 0, map ofE es')) with (for_ 0 n (pl_body add count) (upd (repeat 0 (n + 1)) 0 0, map ofE es')) end. rewrite Ep. cbn [bind]. set (ext := flat_map (colx add es') (seq 0 n)) in *.
  assert (Pe : Permutation ext (with_diags add n es')) by (apply (flat_colx m); auto).
  assert (Le : length es' <= length ext). { rewrite (Permutation_length Pe). unfold with_diags. rewrite app_length. lia. }
  rewrite copy_ok by (rewrite map_length; auto). cbn [bind]. exists p, ext. split.
  { rewrite firstn_map, !map_map. reflexivity. }
  split; auto. split.
  { intros c Hc'. rewrite Hp by auto. unfold ext, cntlt. replace n with (c + (n - c)) by lia. rewrite seq_app, flat_map_app, filter_app, app_length. cbn [Nat.add].
    assert (G1 : forall l, (forall e, In e l -> ecol e < c) -> filter (fun e : ent V => ecol e <? c) l = l). { induction l as [|a l IH]; intros H; auto. cbn [filter]. rewrite (proj2 (Nat.ltb_lt _ _)) by (apply H; left; auto). f_equal. apply IH. intros; apply H; right; auto. }
    assert (G2 : forall l, (forall e, In e l -> c <= ecol e) -> filter (fun e : ent V => ecol e <? c) l = []). { induction l as [|a l IH]; intros H; auto. cbn [filter]. rewrite (proj2 (Nat.ltb_ge _ _)) by (apply H; left; auto). apply IH. intros; apply H; right; auto. }
    rewrite G1, G2; [cbn [length]; lia| |]; intros e H; apply in_flat_map in H; destruct H as (j & Hj & H); apply in_seq in Hj; apply colx_col in H; lia. }
  split. { rewrite Pe. apply (with_diags_perm m); auto. }
  split; [apply flat_colx_sorted|]. split.
  { intros c. destruct (Nat.lt_ge_cases c n) as [Hc'|Hc'].
    - unfold ext. rewrite flat_colx_in_col by auto. unfold colx. destruct (in_col es' c) eqn:Ec'.
      + destruct add; cbn [map]; [apply sorted_le_cons; split; [intros y []|apply sorted_le_nil]|apply sorted_le_nil].
      + rewrite <- Ec'. apply HR.
    - rewrite in_col_none; [apply sorted_le_nil|]. intros e H. unfold ext in H. apply in_flat_map in H. destruct H as (j & Hj & H). apply in_seq in Hj. apply colx_col in H. lia. }
  intros e H. apply (Permutation_in _ Pe) in H. revert e H. apply with_diags_fits; [lia|]. intros e H. apply HF' in H. lia.
Qed.

Lemma compress_bad sortp n tv t add : sorts sortp -> In t tv -> (tcol t < 0 \/ Z.of_nat n <= tcol t)%Z -> compress_triplets_to_csc zero sortp n (length tv) tv add = Err OOB.
Proof.
  intros HS HI HB. unfold compress_triplets_to_csc. rewrite Nat.eqb_refl. cbn [negb]. destruct (HS tv) as [HP _]. fold (cnt_body (sortp tv)). rewrite <- (Permutation_length HP).
  rewrite (count_bad n (sortp tv) t); auto. eapply Permutation_in; [apply Permutation_sym|]; eauto.
Qed.
End Comp.
