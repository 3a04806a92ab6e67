(** C90-C95: the readers, writers and converters of utils/sparse_io.cpp. *)
From Coq Require Import ZifyBool ZifyNat Sorting.Sorted Ascii String.
From Verif Require Import Base Lib Lib2 M_Mat SpecMat M_IO SpecIO L_Util L_IO L_IO2 L_IO3 L_IO4 L_IO5.
Local Open Scope nat_scope.
Local Open Scope list_scope.

Section C90.
Context {V : Type} {DV : Dflt V}.
Variables (zero : V) (ofZ : Z -> V).

(** A file sorted by columns is always accepted without a memory error; rows and values are those of the file; the
    matrix is that of the file exactly when no column is empty, or all entries are in the last column. *)
Theorem C90_read_mtx m n sym (fs : list (nat * nat * tok (V := V))) rest :
  let es := map (file_ent ofZ) fs in
  0 < List.length fs -> fits m n es -> by_columns es ->
  exists A, read_mtx zero ofZ m n (List.length fs) sym (file_toks fs ++ rest) = Ok (Some A) /\
    mm A = m /\ mn A = n /\ mnnz A = List.length fs /\ mst A = (if sym then -1 else 0)%Z /\
    mi A = map (fun e => Z.of_nat (erow e)) es /\ mx A = map eval es /\
    (holds n es (mp A) (mi A) (mx A) <-> (forall c, c < n -> in_col es c <> []) \/ (forall e, In e es -> ecol e = n - 1)).
Proof.
  intros es HN HF HS. eexists. split; [apply (read_mtx_res zero ofZ m n fs); auto|]. cbn [mm mn mnnz mst mp mi mx]. split; [auto|]. split; [auto|]. split; [auto|]. split; [auto|]. split; [auto|]. split; [auto|].
  apply (read_mtx_iff ofZ m n fs); auto.
Qed.

(** the announced number of entries is larger than the number in the file: null *)
Theorem C90_read_mtx_short m n nnz sym (fs : list (nat * nat * tok (V := V))) : List.length fs < nnz -> read_mtx zero ofZ m n nnz sym (file_toks fs) = Ok None.
Proof. intros H. unfold read_mtx. destruct (read_coo_short zero ofZ fs nnz H) as (a & b & c & ->). reflexivity. Qed.

(** pattern files (two literals per entry) with at least three entries are refused: null *)
Theorem C90_read_mtx_pattern m n sym (ps : list (nat * nat)) : 3 <= List.length ps -> read_mtx zero ofZ m n (List.length ps) sym (pat_toks ps) = Ok None.
Proof.
  intros H. unfold read_mtx, read_coo, forb_. fold (coo_body (V := V) ofZ). set (l := flat_map (fun '(r, c) => [(Z.of_nat r + 1)%Z; (Z.of_nat c + 1)%Z]) ps).
  assert (E : pat_toks (V := V) ps = map TInt l). { unfold l, pat_toks. rewrite map_flat_map. apply flat_map_ext. intros [r c]. reflexivity. }
  assert (L : List.length l = 2 * List.length ps). { unfold l. clear. induction ps as [|[r c] ps IH]; auto. cbn [flat_map app List.length]. lia. }
  rewrite E, Nat.sub_0_r. destruct (coo_pattern ofZ (List.length ps) 0 false (repeat 0%Z (List.length ps)) (repeat 0%Z (List.length ps)) (repeat zero (List.length ps)) l) as (s & -> & Hs); try (rewrite repeat_length; lia); [lia|].
  destruct s as [[[[eof a] b] c] d]. cbn [fst snd] in Hs. subst eof. reflexivity.
Qed.

(** files in any order: more changes of column than the matrix has columns lead to a write out of bounds *)
Theorem C90_read_mtx_overrun m n sym (fs : list (nat * nat * tok (V := V))) rest : 0 < n ->
  let cols := map ecol (map (file_ent ofZ) fs) in
  n < List.length (filter (fun k => negb (cols.[k] =? cols.[k - 1])) (seq 1 (List.length fs - 1))) ->
  read_mtx zero ofZ m n (List.length fs) sym (file_toks fs ++ rest) = Err OOB.
Proof.
  intros Hn cols H. unfold read_mtx. replace (0 <? n) with true by lia. rewrite read_coo_ok. cbn [bind]. rewrite run_starts_eq by apply map_length. rewrite repeat_length.
  assert (E : bl (List.length fs) (map zcol fs) 0 = 0 :: filter (fun k => negb (cols.[k] =? cols.[k - 1])) (seq 1 (List.length fs - 1))).
  { unfold bl. assert (HL : 0 < List.length fs) by (destruct fs; [cbn in H; lia|cbn; lia]). replace (List.length fs - 0) with (S (List.length fs - 1)) by lia. cbn [seq filter].
    change (bnd (map zcol fs) 0) with true. cbn iota. f_equal. apply filter_ext_in. intros k Hk. apply in_seq in Hk. unfold bnd. replace (k =? 0) with false by lia. cbn [orb].
    rewrite !(J_col ofZ) by lia. fold cols. f_equal. lia. }
  rewrite E. cbn [List.length]. destruct (Nat.leb_spec (S (List.length (filter (fun k => negb (cols.[k] =? cols.[k - 1])) (seq 1 (List.length fs - 1))))) (n + 1)); [lia|]. reflexivity.
Qed.

(** a matrix without columns: the pointer array is null and p[0] is written *)
Theorem C90_read_mtx_no_columns m sym toks : read_mtx zero ofZ m 0 0 sym toks = Err OOB.
Proof. reflexivity. Qed.
End C90.

(** a 3x3 file in column order without empty column, and one with an empty column *)
Definition f3 : list (nat * nat * tok (V := Z)) := [(0, 0, TInt 5%Z); (2, 0, TInt 7%Z); (1, 1, TInt 6%Z); (2, 2, TInt 8%Z)].
Definition f3e : list (nat * nat * tok (V := Z)) := [(0, 0, TInt 5%Z); (2, 0, TInt 7%Z); (2, 2, TInt 8%Z)].

Example C90_ex : read_mtx 0%Z id 3 3 4 true (file_toks f3) = Ok (Some (mkMtx 3 3 4 (-1)%Z [0; 2; 3; 4] [0; 2; 1; 2]%Z [5; 7; 6; 8]%Z)).
Proof. reflexivity. Qed.

Example C90_ex_hyps : 0 < List.length f3 /\ fits 3 3 (map (file_ent (fun z => z)) f3) /\ by_columns (map (file_ent (fun z => z)) f3) /\ (forall c, c < 3 -> in_col (map (file_ent (fun z => z)) f3) c <> []).
Proof.
  split; [simpl; lia|]. split; [intros e He; simpl in He; unfold erow, ecol; intuition (subst; simpl; lia)|]. split.
  - intros i j Hij Hj. change (j < 4) in Hj. do 4 (destruct j as [|j]; [do 4 (destruct i as [|i]; [try lia; vm_compute; lia|]); lia|]). lia.
  - intros c Hc. do 3 (destruct c as [|c]; [vm_compute; discriminate|]). lia.
Qed.

(** the file with an empty column: pointers 0 2 0 3 *)
Example C90_empty_column : read_mtx 0%Z id 3 3 3 false (file_toks f3e) = Ok (Some (mkMtx 3 3 3 0%Z [0; 2; 0; 3] [0; 2; 2]%Z [5; 7; 8]%Z)).
Proof. reflexivity. Qed.

(** a file sorted by rows: no error, another matrix *)
Theorem C90_read_mtx_unsorted_refuted : exists (fs : list (nat * nat * tok (V := Z))) A,
  fits 2 2 (map (file_ent (fun z => z)) fs) /\ (forall c, c < 2 -> in_col (map (file_ent (fun z => z)) fs) c <> []) /\
  read_mtx 0%Z (fun z => z) 2 2 (List.length fs) false (file_toks fs) = Ok (Some A) /\ ~ holds 2 (map (file_ent (fun z => z)) fs) (mp A) (mi A) (mx A).
Proof.
  exists [(0, 0, TInt 5%Z); (0, 1, TInt 6%Z); (1, 0, TInt 7%Z)]. eexists. split; [intros e He; simpl in He; unfold erow, ecol; intuition (subst; simpl; lia)|].
  split; [intros c Hc; do 2 (destruct c as [|c]; [vm_compute; discriminate|]); lia|]. split; [reflexivity|]. cbn [mp mi mx]. intros (_ & _ & _ & _ & _ & _ & H). specialize (H 0 ltac:(lia)). apply Permutation_length in H. vm_compute in H. discriminate.
Qed.

Print Assumptions C90_read_mtx.
Print Assumptions C90_read_mtx_short.
Print Assumptions C90_read_mtx_pattern.
Print Assumptions C90_read_mtx_overrun.
Print Assumptions C90_read_mtx_no_columns.
Print Assumptions C90_read_mtx_unsorted_refuted.

Section C91.
Context {V : Type} {DV : Dflt V}.
Variables (zero one : V) (ofZ : Z -> V) (sortp : list (trip (V := V)) -> list (trip (V := V))).
Hypothesis HS : sorts sortp.

Lemma real_general m n (ar : arith) sh nnz toks insert (es : list (ent V)) : (ar = REAL \/ ar = INT \/ ar = PATTERN) ->
  read_triplets_real zero ofZ one nnz (match ar with PATTERN => false | _ => true end) toks = Ok (map ofE es) -> nnz = List.length es -> fits m n es -> 0 < n ->
  exists A ext, read_mtx_csc_real zero ofZ sortp one m n nnz ar sh COORDINATE toks insert = Ok A /\ mm A = m /\ mn A = n /\ mnnz A = List.length ext /\
    mst A = (match sh with LOWER => -1 | GENERAL => 0 end)%Z /\ mi A = map (fun e => Z.of_nat (erow e)) (firstn (List.length es) ext) /\ mx A = map eval (firstn (List.length es) ext) /\
    Permutation ext (with_diags zero insert n es) /\ by_columns ext /\ rows_up ext /\ holds n (with_diags zero insert n es) (mp A) (map (fun e => Z.of_nat (erow e)) ext) (map eval ext).
Proof.
  intros Har HT -> HF Hn. destruct (compress_ok zero ofZ sortp m n es insert HS HF Hn) as (p & ext & E & Lp & Hp & HP & HB & HR & HE).
  assert (R : rd p n = Ok (List.length ext)). { rewrite rd_ok by lia. rewrite Hp by lia. f_equal. apply (cntlt_all (Nat.max m n)). auto. }
  exists (mkMtx m n (List.length ext) (match sh with LOWER => -1 | GENERAL => 0 end)%Z p (map (fun e => Z.of_nat (erow e)) (firstn (List.length es) ext)) (map eval (firstn (List.length es) ext))), ext.
  split. { unfold read_mtx_csc_real. destruct ar; [rewrite HT|rewrite HT|exfalso; destruct Har as [H|[H|H]]; discriminate|rewrite HT]; cbn [bind]; rewrite E; cbn [bind]; rewrite R; reflexivity. }
  cbn [mm mn mnnz mst mp mi mx]. do 6 (split; [auto|]). split; [auto|]. split; [auto|]. split; [auto|].
  apply (holds_sorted (Nat.max m n)); auto.
  - intros e H. apply HE. eapply Permutation_in; [apply Permutation_sym|]; eauto.
  - intros c Hc. rewrite Hp by auto. apply cntlt_perm. auto.
Qed.

Lemma with_diags_none n (es : list (ent V)) insert : insert = false \/ (forall c, c < n -> in_col es c <> []) -> with_diags zero insert n es = es.
Proof.
  intros H. unfold with_diags. destruct insert; [|apply app_nil_r]. destruct H as [H|H]; [discriminate|]. replace (filter _ (seq 0 n)) with (@nil nat); [apply app_nil_r|].
  symmetry. assert (G : forall l, (forall c, In c l -> c < n) -> filter (fun j => match in_col es j with [] => true | _ => false end) l = []).
  { induction l as [|a l IH]; intros Hl; auto. cbn [filter]. specialize (H a). destruct (in_col es a); [exfalso; apply H; auto; apply Hl; left; auto|]. apply IH. intros; apply Hl; right; auto. }
  apply G. intros c Hc. apply in_seq in Hc. lia.
Qed.

(** real and integer files in any order: the matrix of the file, rows sorted, if no diagonal is asked for or no column is empty *)
Theorem C91_read_mtx_csc_real m n ar sh insert (fs : list (nat * nat * tok (V := V))) rest : let es := map (file_ent ofZ) fs in
  ar = REAL \/ ar = INT -> fits m n es -> 0 < n -> insert = false \/ (forall c, c < n -> in_col es c <> []) ->
  exists A, read_mtx_csc_real zero ofZ sortp one m n (List.length fs) ar sh COORDINATE (file_toks fs ++ rest) insert = Ok A /\
    mm A = m /\ mn A = n /\ mnnz A = List.length fs /\ mst A = (match sh with LOWER => -1 | GENERAL => 0 end)%Z /\ holds n es (mp A) (mi A) (mx A) /\
    (forall c k, c < n -> (mp A).[c] <= k -> S k < (mp A).[S c] -> ((mi A).[k] <= (mi A).[S k])%Z).
Proof.
  intros es Har HF Hn HI. destruct (real_general m n ar sh (List.length fs) (file_toks fs ++ rest) insert es) as (A & ext & E & A1 & A2 & A3 & A4 & A5 & A6 & HP & HB & HR & HH); auto.
  { destruct Har; auto. } { destruct Har as [->| ->]; apply read_triplets_ok. } { unfold es. now rewrite map_length. }
  rewrite (with_diags_none n es insert HI) in *. pose proof (Permutation_length HP) as EL. rewrite <- EL, firstn_all in A5, A6. rewrite <- A5, <- A6 in HH.
  exists A. split; auto. split; auto. split; auto. split; [rewrite A3, EL; unfold es; apply map_length|]. split; auto. split; auto.
  intros c k Hc K1 K2. destruct (sorted_parts ext c HB) as (w & Ew & EC).
  pose proof HH as (_ & _ & HNN & HM & _). assert (Hp : forall c, c <= n -> (mp A).[c] = cntlt ext c).
  { intros c' Hc'. rewrite (cntlt_perm _ _ _ HP). revert c' Hc'. induction c' as [|c' IH]; intros Hc'; [rewrite cntlt_0; apply HH|]. pose proof (holds_count _ _ _ _ _ c' HH ltac:(lia)). specialize (HM c' ltac:(lia)). rewrite cntlt_step. specialize (IH ltac:(lia)). lia. }
  rewrite !Hp in * by lia. rewrite A5. specialize (HR c). unfold cntlt in *. set (u := filter (fun e => ecol e <? c) ext) in *. set (v := in_col ext c) in *. rewrite EC in K2. rewrite Ew.
  assert (K : forall q, List.length u <= q -> q < List.length u + List.length v -> (map (fun e => Z.of_nat (erow e)) (u ++ v ++ w)).[q] = Z.of_nat (map erow v).[q - List.length u]).
  { intros q Q1 Q2. rewrite !map_app, aget_app2 by (rewrite map_length; auto). rewrite aget_app1 by (rewrite !map_length; lia). rewrite map_length. rewrite <- (map_map erow Z.of_nat). rewrite (aget_map Z.of_nat (map erow v)) by (rewrite map_length; lia). reflexivity. }
  rewrite !K by lia. specialize (HR (k - List.length u) (S k - List.length u) ltac:(lia) ltac:(rewrite map_length; lia)). lia.
Qed.

(** pattern files: the value of every entry is 1 *)
Theorem C91_read_mtx_csc_pattern m n sh insert (ps : list (nat * nat)) rest : let es := pat_ents one ps in
  fits m n es -> 0 < n -> insert = false \/ (forall c, c < n -> in_col es c <> []) ->
  exists A, read_mtx_csc_real zero ofZ sortp one m n (List.length ps) PATTERN sh COORDINATE (pat_toks ps ++ rest) insert = Ok A /\
    mm A = m /\ mn A = n /\ mnnz A = List.length ps /\ mst A = (match sh with LOWER => -1 | GENERAL => 0 end)%Z /\ holds n es (mp A) (mi A) (mx A).
Proof.
  intros es HF Hn HI. destruct (real_general m n PATTERN sh (List.length ps) (pat_toks ps ++ rest) insert es) as (A & ext & E & A1 & A2 & A3 & A4 & A5 & A6 & HP & HB & HR & HH); auto.
  { apply read_triplets_pat. } { unfold es, pat_ents. now rewrite map_length. }
  rewrite (with_diags_none n es insert HI) in *. pose proof (Permutation_length HP) as EL. rewrite <- EL, firstn_all in A5, A6. rewrite <- A5, <- A6 in HH.
  exists A. split; auto. split; auto. split; auto. split; [rewrite A3, EL; unfold es, pat_ents; apply map_length|]. split; auto.
Qed.

(** a diagonal is asked for and some columns are empty: the pointers and the count are those of the file plus one zero for
    every empty column, but the arrays have only room for the entries of the file, so the last entries are cut off *)
Theorem C91_insert_diag_truncates m n ar sh (fs : list (nat * nat * tok (V := V))) rest : let es := map (file_ent ofZ) fs in
  let empties := filter (fun j => match in_col es j with [] => true | _ => false end) (seq 0 n) in
  ar = REAL \/ ar = INT -> fits m n es -> 0 < n ->
  exists A i x, read_mtx_csc_real zero ofZ sortp one m n (List.length fs) ar sh COORDINATE (file_toks fs ++ rest) true = Ok A /\
    holds n (es ++ map (fun j => (j, j, zero)) empties) (mp A) i x /\ mi A = firstn (List.length fs) i /\ mx A = firstn (List.length fs) x /\
    mnnz A = List.length (mi A) + List.length empties /\ (mp A).[n] = List.length (mx A) + List.length empties.
Proof.
  intros es empties Har HF Hn. destruct (real_general m n ar sh (List.length fs) (file_toks fs ++ rest) true es) as (A & ext & E & A1 & A2 & A3 & A4 & A5 & A6 & HP & HB & HR & HH); auto.
  { destruct Har; auto. } { destruct Har as [->| ->]; apply read_triplets_ok. } { unfold es. now rewrite map_length. }
  exists A, (map (fun e => Z.of_nat (erow e)) ext), (map eval ext). split; auto. split; [exact HH|]. assert (L : List.length es = List.length fs) by (unfold es; apply map_length). rewrite <- L, !firstn_map. split; auto. split; auto.
  pose proof (Permutation_length HP) as EL. unfold with_diags in EL. fold empties in EL. rewrite app_length, map_length in EL.
  rewrite A3, A5, A6, !map_length, firstn_length. split; [lia|]. destruct HH as (_ & _ & H & _). rewrite H. unfold with_diags. fold empties. rewrite app_length, map_length. lia.
Qed.

(** fewer entries than announced, or a column index that is too large: out of bounds *)
Theorem C91_read_mtx_csc_short m n nnz ar sh (fs : list (nat * nat * tok (V := V))) insert : ar = REAL \/ ar = INT -> List.length fs < nnz ->
  read_mtx_csc_real zero ofZ sortp one m n nnz ar sh COORDINATE (file_toks fs) insert = Err OOB.
Proof.
  intros Har H. destruct (read_triplets_short zero ofZ one fs nnz H) as (tv & t & E & L & HI & HB).
  unfold read_mtx_csc_real. destruct Har as [->| ->]; rewrite E; cbn [bind]; rewrite <- L, (compress_bad zero ofZ sortp n tv t insert) by (auto; lia); reflexivity.
Qed.

Theorem C91_read_mtx_csc_bad_column m n ar sh (fs : list (nat * nat * tok (V := V))) rest insert e : ar = REAL \/ ar = INT -> In e (map (file_ent ofZ) fs) -> n <= ecol e ->
  read_mtx_csc_real zero ofZ sortp one m n (List.length fs) ar sh COORDINATE (file_toks fs ++ rest) insert = Err OOB.
Proof.
  intros Har HI HB. unfold read_mtx_csc_real. set (tv := map ofE (map (file_ent ofZ) fs)). assert (L : List.length fs = List.length tv) by (unfold tv; now rewrite !map_length).
  assert (HI' : In (ofE e) tv) by (apply in_map; auto). assert (HB' : (tcol (ofE e) < 0 \/ Z.of_nat n <= tcol (ofE e))%Z) by (right; unfold ofE, tcol; cbn [fst snd]; lia).
  destruct Har as [->| ->]; rewrite read_triplets_ok; fold tv; cbn [bind]; rewrite L; rewrite (compress_bad zero ofZ sortp n tv (ofE e) insert) by auto; reflexivity.
Qed.
End C91.

(** a sorting function: insertion *)
Fixpoint ins (t : trip (V := Z)) (l : list trip) : list trip := match l with [] => [t] | a :: r => if tlt a t then a :: ins t r else t :: l end.
Definition inssort (l : list (trip (V := Z))) : list trip := fold_right ins [] l.

Lemma ins_perm t l : Permutation (ins t l) (t :: l).
Proof. induction l as [|a l IH]; cbn [ins]; auto. destruct (tlt a t); auto. rewrite IH. apply perm_swap. Qed.

Lemma tlt_trans a b c : tlt (V := Z) b a = false -> tlt c b = false -> tlt c a = false.
Proof. unfold tlt. lia. Qed.

Lemma ins_sorted t l : StronglySorted (fun a b => tlt b a = false) l -> StronglySorted (fun a b => tlt b a = false) (ins t l).
Proof.
  induction l as [|a l IH]; intros H; cbn [ins]; [repeat constructor|]. apply StronglySorted_inv in H. destruct H as [H1 H2]. destruct (tlt a t) eqn:E.
  - constructor; auto. apply Forall_forall. intros x Hx. apply (Permutation_in _ (ins_perm t l)) in Hx. destruct Hx as [<-|Hx]; [unfold tlt in *; lia|]. rewrite Forall_forall in H2. auto.
  - constructor; [constructor; auto|]. constructor; auto. rewrite Forall_forall in *. intros x Hx. apply (tlt_trans t a x); auto.
Qed.

Example C91_sorts : sorts inssort.
Proof. intros l. induction l as [|t l [IH1 IH2]]; [split; constructor|]. cbn [inssort fold_right]. split; [rewrite ins_perm; auto|]. now apply ins_sorted. Qed.

Definition f3u : list (nat * nat * tok (V := Z)) := [(2, 2, TInt 8%Z); (2, 0, TInt 7%Z); (0, 0, TInt 5%Z)].

Example C91_ex : read_mtx_csc_real 0%Z (fun z => z) inssort 1%Z 3 3 3 REAL LOWER COORDINATE (file_toks f3u) false = Ok (mkMtx 3 3 3 (-1)%Z [0; 2; 2; 3] [0; 2; 2]%Z [5; 7; 8]%Z).
Proof. reflexivity. Qed.

(** the same file with insert_diag: four entries announced, three stored; the entry 8 of the last column is lost *)
Example C91_ex_truncated : read_mtx_csc_real 0%Z (fun z => z) inssort 1%Z 3 3 3 REAL LOWER COORDINATE (file_toks f3u) true = Ok (mkMtx 3 3 4 (-1)%Z [0; 2; 3; 4] [0; 2; 1]%Z [5; 7; 0]%Z).
Proof. reflexivity. Qed.

Print Assumptions C91_read_mtx_csc_real.
Print Assumptions C91_read_mtx_csc_pattern.
Print Assumptions C91_insert_diag_truncates.
Print Assumptions C91_read_mtx_csc_short.
Print Assumptions C91_read_mtx_csc_bad_column.

Section C92.
Context {V : Type} {DV : Dflt V}.
Variables (zero : V) (isz : V -> bool).

(** every entry that is not zero is stored once, by increasing row, nothing else *)
Theorem C92_dense_to_csc rows cols (val : list (list V)) : 0 < cols -> rows <= List.length val -> (forall i, i < rows -> cols <= List.length val.[i]) ->
  exists A, dense_to_csc zero isz rows cols val = Ok A /\ cm A = rows /\ cn A = cols /\ wf_mat rows cols (cp A) (ci A) /\ List.length (ci A) = cnnz A /\ List.length (cx A) = cnnz A /\ (cp A).[cols] = cnnz A /\
    forall j, j < cols -> SpecMat.col (cp A) (ci A) (cx A) j = map (fun i => (i, (val.[i]).[j])) (filter (fun i => negb (isz (val.[i]).[j])) (seq 0 rows)).
Proof.
  intros Hc HR HC. destruct (dense_ok zero isz rows cols val HR HC Hc) as (A & E & A1 & A2 & A3 & A4 & A5 & A6 & A7 & A8). exists A. split; auto. split; auto. split; auto.
  assert (M : forall c, c < cols -> (cp A).[S c] = (cp A).[c] + List.length (dcol isz val c rows)). { intros c Hc'. rewrite !A6 by lia. rewrite dall_S, app_length. reflexivity. }
  split.
  { split; [lia|]. split; [now rewrite A6 by lia|]. split; [intros i Hi; rewrite M by auto; lia|]. split; [rewrite A6, A7, map_length by lia; auto|].
    intros k Hk. rewrite A6 in Hk by lia. assert (In (ci A).[k] (ci A)) as H by (apply aget_In; rewrite A7, map_length; auto). rewrite A7 in H at 2. apply in_map_iff in H. destruct H as ([i v] & <- & H).
    unfold dall in H. apply in_flat_map in H. destruct H as (j & _ & H). unfold dcol in H. apply in_map_iff in H. destruct H as (i' & Ei & H). injection Ei as <- _. apply filter_In in H. destruct H as [H _]. apply in_seq in H. cbn [fst]. lia. }
  split; [rewrite A7, A3; apply map_length|]. split; [rewrite A8, A3; apply map_length|]. split; [rewrite A6, A3 by lia; auto|].
  intros j Hj. unfold SpecMat.col. rewrite M by auto. replace ((cp A).[j] + List.length (dcol isz val j rows) - (cp A).[j]) with (List.length (dcol isz val j rows)) by lia. rewrite A6, A7, A8 by lia.
  destruct (dall_window zero isz rows cols val HR HC j Hj) as [w ->]. rewrite map_window. rewrite (map_ext _ id) by (intros []; reflexivity). rewrite map_id. reflexivity.
Qed.

(** no columns: the null pointer array is read *)
Theorem C92_dense_to_csc_no_columns rows val : dense_to_csc zero isz rows 0 val = Err OOB.
Proof. unfold dense_to_csc. rewrite for_nil by lia. cbn [bind Nat.ltb Nat.leb]. rewrite for_nil by lia. reflexivity. Qed.
End C92.

Example C92_ex : dense_to_csc 0%Z (Z.eqb 0) 2 3 [[1; 0; 3]; [4; 0; 0]]%Z = Ok (mkCSC 2 3 3 false 0%Z [0; 2; 2; 3] [0; 1; 0] [1; 4; 3]%Z).
Proof. reflexivity. Qed.

Print Assumptions C92_dense_to_csc.
Print Assumptions C92_dense_to_csc_no_columns.

Section C93.
Context {V : Type} {DV : Dflt V}.
Variable zero : V.

(** The result has one pointer more in front and row indices from 1; its value array is all zero: the values of the
    input are not used at all. *)
Theorem C93_one_based (A : csc V) : wf_mat (cm A) (cn A) (cp A) (ci A) -> cnnz A <= List.length (ci A) ->
  exists B, convert_to_one_based zero A = Ok B /\ cm B = cm A /\ cn B = cn A /\ cnnz B = cnnz A /\ List.length (cp B) = S (S (cn A)) /\ (forall k, k <= cn A -> (cp B).[S k] = (cp A).[k]) /\
    (forall k, k < cnnz A -> (ci B).[k] = (ci A).[k] + 1) /\ (cpat A = false -> List.length (cx B) = cnnz A /\ forall k, k < cnnz A -> (cx B).[k] = zero).
Proof.
  intros HW HN. eexists. split; [apply one_based_ok; auto|]. cbn [cm cn cnnz cp ci cx]. split; auto. split; auto. split; auto. destruct HW as (W1 & _). split; [cbn [List.length]; rewrite firstn_length; lia|].
  split. { intros k Hk. rewrite aget_cons_S. apply aget_firstn. lia. }
  split. { intros k Hk. rewrite (aget_map S (firstn (cnnz A) (ci A))) by (rewrite firstn_length; lia). rewrite aget_firstn by lia. lia. }
  intros ->. split; [apply repeat_length|]. intros k Hk. now apply aget_repeat.
Qed.

(** the values are lost for every matrix with a value different from zero *)
Theorem C93_values_lost (A : csc V) k : wf_mat (cm A) (cn A) (cp A) (ci A) -> cnnz A <= List.length (ci A) -> cpat A = false -> k < cnnz A -> (cx A).[k] <> zero ->
  exists B, convert_to_one_based zero A = Ok B /\ (cx B).[k] <> (cx A).[k].
Proof. intros HW HN HP Hk HZ. destruct (C93_one_based A HW HN) as (B & E & _ & _ & _ & _ & _ & _ & H). exists B. split; auto. destruct (H HP) as [_ H']. rewrite H' by auto. congruence. Qed.
End C93.

Example C93_ex : convert_to_one_based 0%Z (mkCSC 2 2 3 false 0%Z [0; 2; 3] [0; 1; 1] [5; 6; 7]%Z) = Ok (mkCSC 2 2 3 false 0%Z [0; 0; 2; 3] [1; 2; 2] [0; 0; 0]%Z).
Proof. reflexivity. Qed.

Print Assumptions C93_one_based.
Print Assumptions C93_values_lost.

Section C94.
Context {V : Type} {DV : Dflt V}.
Variables (zero one : V) (ofZ : Z -> V) (round : V -> V) (sortp : list (trip (V := V)) -> list (trip (V := V))).
Hypothesis HS : sorts sortp.

(** Writing a matrix with CSC_to_mtx and reading the file with read_mtx (the banner says general): row indices and rounded
    values come back; the column pointers come back exactly if no column is empty or only the last one is not. *)
Theorem C94_round_trip (A : csc V) : wf_mat (cm A) (cn A) (cp A) (ci A) -> List.length (ci A) <= List.length (cx A) -> cnnz A = (cp A).[cn A] -> 0 < cnnz A ->
  exists toks B, CSC_to_mtx round A = Ok (cm A, cn A, cnnz A, toks) /\ read_mtx zero ofZ (cm A) (cn A) (cnnz A) false toks = Ok (Some B) /\
    mm B = cm A /\ mn B = cn A /\ mnnz B = cnnz A /\ mst B = 0%Z /\ mi B = map Z.of_nat (firstn (cnnz A) (ci A)) /\ mx B = map round (firstn (cnnz A) (cx A)) /\
    (mp B = firstn (S (cn A)) (cp A) <-> (forall c, c < cn A -> (cp A).[c] < (cp A).[S c]) \/ (cp A).[cn A - 1] = 0).
Proof.
  intros HW HX HZ HP. exists (file_toks (mat_file round A)). destruct (round_trip zero ofZ round A HW HX HZ HP false) as (B & HB). exists B. split; [apply CSC_to_mtx_ok; auto|]. exact HB.
Qed.

(** the nnz field larger than p[n] (space reserved): the file announces too many entries and is refused *)
Theorem C94_round_trip_reserved (A : csc V) : wf_mat (cm A) (cn A) (cp A) (ci A) -> List.length (ci A) <= List.length (cx A) -> (cp A).[cn A] < cnnz A ->
  exists toks, CSC_to_mtx round A = Ok (cm A, cn A, cnnz A, toks) /\ read_mtx zero ofZ (cm A) (cn A) (cnnz A) false toks = Ok None.
Proof. intros HW HX HZ. exists (file_toks (mat_file round A)). split; [apply CSC_to_mtx_ok; auto|]. apply round_trip_short; auto. Qed.

(** the other reader returns the matrix for every pattern of empty columns *)
Theorem C94_round_trip_real (A : csc V) : wf_mat (cm A) (cn A) (cp A) (ci A) -> List.length (ci A) <= List.length (cx A) -> cnnz A = (cp A).[cn A] -> 0 < cn A ->
  exists toks B, CSC_to_mtx round A = Ok (cm A, cn A, cnnz A, toks) /\ read_mtx_csc_real zero ofZ sortp one (cm A) (cn A) (cnnz A) REAL GENERAL COORDINATE toks false = Ok B /\
    mm B = cm A /\ mn B = cn A /\ mnnz B = cnnz A /\ mst B = 0%Z /\ mp B = firstn (S (cn A)) (cp A) /\
    forall c, c < cn A -> Permutation (map (fun k => ((mi B).[k], (mx B).[k])) (seq (mp B).[c] ((mp B).[S c] - (mp B).[c])))
                                      (map (fun k => (Z.of_nat (ci A).[k], round (cx A).[k])) (seq (cp A).[c] ((cp A).[S c] - (cp A).[c]))).
Proof.
  intros HW HX HZ Hn. pose proof (mat_file_len zero ofZ round A HW HX) as HL. exists (file_toks (mat_file round A)).
  destruct (C91_read_mtx_csc_real zero one ofZ sortp HS (cm A) (cn A) REAL GENERAL false (mat_file round A) []) as (B & E & B1 & B2 & B3 & B4 & B5 & _); auto.
  { apply (mat_file_fits zero ofZ round A); auto. }
  rewrite app_nil_r, HL, <- HZ in E. exists B. split; [apply CSC_to_mtx_ok; auto|]. split; auto. split; auto. split; auto. split; [congruence|]. split; auto.
  assert (EP : mp B = firstn (S (cn A)) (cp A)).
  { pose proof B5 as (LB & _). assert (W1 : cn A < List.length (cp A)) by apply HW. apply list_ext; [rewrite firstn_length; lia|]. intros c Hc. rewrite aget_firstn by lia. rewrite <- (mat_file_cntlt zero ofZ round A HW HX c) by lia. apply (holds_p zero ofZ round A HX _ _ _ _ B5 c). lia. }
  split; auto. intros c Hc. destruct B5 as (_ & _ & _ & _ & _ & _ & H). rewrite (H c Hc). clear H.
  rewrite (mat_file_ents ofZ round A). assert (EC : in_col (flat_map (mcol round A) (seq 0 (cn A))) c = mcol round A c).
  { clear -Hc. assert (G : forall k, c < k -> in_col (flat_map (mcol round A) (seq 0 k)) c = mcol round A c).
    { induction k as [|k IH]; intros H; [lia|]. rewrite seq_S, flat_map_app, in_col_app. cbn [Nat.add flat_map]. rewrite app_nil_r. destruct (Nat.eq_dec c k) as [->|].
      - rewrite in_col_none, in_col_all; auto; [intros e; apply mcol_col|]. intros e He. apply in_flat_map in He. destruct He as (j & Hj & He). apply in_seq in Hj. apply mcol_col in He. lia.
      - rewrite IH by lia. rewrite (in_col_none (mcol round A k)); [apply app_nil_r|]. intros e He. apply mcol_col in He. lia. }
    apply G; auto. }
  rewrite EC. unfold mcol. rewrite map_map. reflexivity.
Qed.
End C94.

(** an empty column in the middle *)
Definition A3e : csc Z := mkCSC 3 3 3 false (-1)%Z [0; 2; 2; 3] [0; 2; 2] [5; 7; 8]%Z.
Example C94_ex_hyps : wf_mat (cm A3e) (cn A3e) (cp A3e) (ci A3e) /\ cnnz A3e = (cp A3e).[cn A3e] /\ 0 < cnnz A3e.
Proof.
  split; [|split; [reflexivity|simpl; lia]]. split; [simpl; lia|]. split; [reflexivity|]. split; [|split; [vm_compute; lia|]].
  - intros i Hi. change (i < 3) in Hi. do 3 (destruct i as [|i]; [vm_compute; lia|]). lia.
  - intros k Hk. change (k < 3) in Hk. do 3 (destruct k as [|k]; [vm_compute; lia|]). lia.
Qed.
Example C94_ex : exists toks B, CSC_to_mtx (fun z => z) A3e = Ok (3, 3, 3, toks) /\ read_mtx 0%Z (fun z => z) 3 3 3 false toks = Ok (Some B) /\ mp B = [0; 2; 0; 3].
Proof. eexists. eexists. split; [reflexivity|]. split; reflexivity. Qed.

Print Assumptions C94_round_trip.
Print Assumptions C94_round_trip_reserved.
Print Assumptions C94_round_trip_real.

Section C95.
Variables (words : string -> list string) (trim_lower trim : string -> string) (number : string -> option Z).
Hypotheses (HT : forall s, trim (trim s) = trim s) (HTL : forall s, trim (trim_lower s) = trim_lower s) (HE : trim EmptyString = EmptyString).

Let loop nl := (fun '(line, st) => let '(line, st) := getline nl line st in Ok (trim line, st)) : string * (list string * bool) -> res (string * (list string * bool)).
Let cond : string * (list string * bool) -> res bool := fun '(line, st) => Ok (is_comment line).

Lemma skip nl sz rest : forall cs line fuel, List.length cs + 1 < fuel -> is_comment line = true -> Forall (fun l => is_comment (trim l) = true) cs -> is_comment (trim sz) = false ->
  while_ fuel cond (loop nl) (line, (cs ++ sz :: rest, false)) = Ok (trim sz, (rest, match rest with [] => negb nl | _ => false end)).
Proof.
  induction cs as [|c cs IH]; intros line fuel HF HL HC HZ; (destruct fuel as [|fuel]; [lia|]); cbn [while_ List.length app] in *; unfold cond at 1; cbn [bind]; rewrite HL; unfold loop at 1; cbn [getline].
  - destruct fuel as [|fuel]; [lia|]. destruct rest as [|r rest]; cbn [bind while_]; unfold cond at 1; cbn [bind]; rewrite HZ; reflexivity.
  - inversion HC as [|? ? H1 H2]; subst. replace (match cs ++ sz :: rest with [] => (c, ([], negb nl)) | _ :: _ => (c, (cs ++ sz :: rest, false)) end) with (c, (cs ++ sz :: rest, false)) by (destruct cs; reflexivity).
    cbn [bind]. apply IH; auto. lia.
Qed.

Lemma skip_end : forall cs line fuel, List.length cs + 2 < fuel -> is_comment line = true -> Forall (fun l => is_comment (trim l) = true) cs ->
  while_ fuel cond (loop true) (line, (cs, false)) = Ok (EmptyString, ([], true)).
Proof.
  induction cs as [|c cs IH]; intros line fuel HF HL HC; (destruct fuel as [|fuel]; [lia|]); cbn [while_ List.length] in *; unfold cond at 1; cbn [bind]; rewrite HL; unfold loop at 1; cbn [getline].
  - rewrite HE. cbn [bind]. destruct fuel as [|fuel]; [lia|]. reflexivity.
  - inversion HC as [|? ? H1 H2]; subst. destruct cs as [|c' cs].
    + cbn [negb bind]. apply IH; auto. lia.
    + cbn [bind]. apply IH; auto. lia.
Qed.

Lemma hang : forall fuel cs line, is_comment line = true -> trim line = line -> Forall (fun l => is_comment (trim l) = true) cs -> forall eof, eof = true \/ cs <> [] ->
  while_ fuel cond (loop false) (line, (cs, eof)) = Err Fuel.
Proof.
  induction fuel as [|fuel IH]; intros cs line HL HTr HC eof He; [reflexivity|]. cbn [while_]. unfold cond at 1. cbn [bind]. rewrite HL. unfold loop at 1. cbn [getline]. destruct eof.
  - cbn [bind]. rewrite HTr. apply IH; auto.
  - destruct cs as [|c cs]; [destruct He; congruence|]. inversion HC as [|? ? H1 H2]; subst. destruct cs as [|c' cs]; cbn [negb bind]; apply IH; auto. right. discriminate.
Qed.

(** the first line is a banner this library knows *)
Definition banner (l : string) (fm : format) (ar : arith) (sh : shape) : Prop :=
  is_comment (trim_lower l) = true /\ exists w tl, words (trim_lower l) = "%%matrixmarket"%string :: "matrix"%string :: w ++ tl /\
    w = [match fm with COORDINATE => "coordinate" | ARRAY => "array" end; match ar with REAL => "real" | INT => "integer" | COMPLEX => "complex" | PATTERN => "pattern" end;
         match sh with LOWER => "symmetric" | GENERAL => "general" end]%string.

Lemma header_unf fuel nl l0 ls fm ar sh : banner l0 fm ar sh ->
  read_header words trim_lower trim number fuel nl (l0 :: ls) =
  bind (while_ fuel cond (loop nl) (trim_lower l0, (ls, match ls with [] => negb nl | _ => false end))) (fun '(line, st) =>
      match fm with
      | COORDINATE => match map number (words line) with
                      | Some r :: Some c :: Some z :: _ => Ok (r, c, z, ar, sh, fm, st)
                      | _ => Err Throw end
      | ARRAY => match map number (words line) with
                 | Some r :: Some c :: _ => Ok (r, c, (r * c)%Z, ar, sh, fm, st)
                 | _ => Err Throw end
      end).
Proof.
  intros (H1 & w & tl & H2 & ->). unfold read_header.
  replace (getline nl EmptyString (l0 :: ls, false)) with (l0, (ls, match ls with [] => negb nl | _ => false end)) by (destruct ls; reflexivity).
  rewrite H2. cbn [app]. destruct fm, ar, sh; reflexivity.
Qed.

(** a correct coordinate file: banner, comment lines, size line *)
Theorem C95_header_ok fuel nl l0 cs sz rest ar sh r c z tl : banner l0 COORDINATE ar sh -> Forall (fun l => is_comment (trim l) = true) cs -> is_comment (trim sz) = false ->
  map number (words (trim sz)) = Some r :: Some c :: Some z :: tl -> List.length cs + 1 < fuel ->
  exists eof, read_header words trim_lower trim number fuel nl (l0 :: cs ++ sz :: rest) = Ok (r, c, z, ar, sh, COORDINATE, (rest, eof)).
Proof.
  intros HB HC HZ HN HF. rewrite (header_unf _ _ _ _ _ _ _ HB). replace (match cs ++ sz :: rest with [] => negb nl | _ => false end) with false by (destruct cs; reflexivity).
  rewrite skip by (auto; apply HB). cbn [bind]. rewrite HN. eauto.
Qed.

(** nothing but comment lines after the banner, the last line ended by a newline: an exception is thrown *)
Theorem C95_header_no_size fuel l0 cs fm ar sh : banner l0 fm ar sh -> Forall (fun l => is_comment (trim l) = true) cs -> map number (words EmptyString) = [] -> List.length cs + 2 < fuel ->
  read_header words trim_lower trim number fuel true (l0 :: cs) = Err Throw.
Proof.
  intros HB HC HW HF. rewrite (header_unf _ _ _ _ _ _ _ HB). replace (match cs with [] => negb true | _ => false end) with false by (destruct cs; reflexivity).
  rewrite skip_end by (auto; apply HB). cbn [bind]. rewrite HW. destruct fm; reflexivity.
Qed.

(** the same without a newline at the end: the loop never ends *)
Theorem C95_header_hangs l0 cs fm ar sh : banner l0 fm ar sh -> Forall (fun l => is_comment (trim l) = true) cs -> forall fuel, read_header words trim_lower trim number fuel false (l0 :: cs) = Err Fuel.
Proof.
  intros HB HC fuel. rewrite (header_unf _ _ _ _ _ _ _ HB). rewrite hang; auto; [apply HB|]. destruct cs; [left; reflexivity|right; discriminate].
Qed.
End C95.

Definition ex_words (s : string) : list string :=
  if String.eqb s "%%matrixmarket matrix coordinate real general" then ["%%matrixmarket"; "matrix"; "coordinate"; "real"; "general"]%string
  else if String.eqb s "3 4 5" then ["3"; "4"; "5"]%string else [].
Definition ex_number (s : string) : option Z := if String.eqb s "3" then Some 3%Z else if String.eqb s "4" then Some 4%Z else if String.eqb s "5" then Some 5%Z else None.

Example C95_ex : read_header ex_words (fun s => s) (fun s => s) ex_number 10 false ["%%matrixmarket matrix coordinate real general"; "% made by hand"; "3 4 5"; "1 1 2"]%string
  = Ok (3, 4, 5, REAL, GENERAL, COORDINATE, (["1 1 2"]%string, false))%Z.
Proof. reflexivity. Qed.

Example C95_ex_banner : banner ex_words (fun s => s) "%%matrixmarket matrix coordinate real general"%string COORDINATE REAL GENERAL.
Proof. split; [reflexivity|]. eexists. exists []. split; [|reflexivity]. reflexivity. Qed.

Print Assumptions C95_header_ok.
Print Assumptions C95_header_no_size.
Print Assumptions C95_header_hangs.
