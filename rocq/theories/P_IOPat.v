(** C91: pattern files that are read with insert_diag, end early or have a column index that is too large. *)
From Coq Require Import ZifyBool ZifyNat.
From Verif Require Import Base Lib Lib2 M_Mat SpecMat M_IO SpecIO L_Util L_IO L_IO2 L_IO3 L_IO4 L_IO5 P_IO.

Section Pat.
Context {V : Type} {DV : Dflt V}.
Variables (zero one : V) (ofZ : Z -> V) (sortp : list (trip (V := V)) -> list (trip (V := V))).
Hypothesis HS : sorts sortp.

(** the rows of every column are sorted *)
Theorem C91_pattern_rows m n sh insert (ps : list (nat * nat)) rest : let es := pat_ents one ps in
  fits m n es -> 0 < n -> insert = false \/ (forall c, c < n -> in_col es c <> []) ->
  exists A, read_mtx_csc_real zero ofZ sortp one m n (List.length ps) PATTERN sh COORDINATE (pat_toks ps ++ rest) insert = Ok A /\ holds n es (mp A) (mi A) (mx A) /\
    (forall c k, c < n -> (mp A).[c] <= k -> S k < (mp A).[S c] -> ((mi A).[k] <= (mi A).[S k])%Z).
Proof.
  intros es HF Hn HI. destruct (real_general zero one ofZ sortp HS m n PATTERN sh (List.length ps) (pat_toks ps ++ rest) insert es) as (A & ext & E & A1 & A2 & A3 & A4 & A5 & A6 & HP & HB & HR & HH); auto.
  { apply read_triplets_pat. } { unfold es, pat_ents. now rewrite map_length. }
  rewrite (with_diags_none zero n es insert HI) in *. pose proof (Permutation_length HP) as EL. rewrite <- EL, firstn_all in A5, A6. rewrite <- A5, <- A6 in HH.
  exists A. split; auto. split; auto.
  intros c k Hc K1 K2. destruct (sorted_parts ext c HB) as (w & Ew & EC).
  pose proof HH as (_ & _ & HNN & HM & _). assert (Hp : forall c, c <= n -> (mp A).[c] = cntlt ext c).
  { intros c' Hc'. rewrite (cntlt_perm _ _ _ HP). revert c' Hc'. induction c' as [|c' IH]; intros Hc'; [rewrite cntlt_0; apply HH|]. pose proof (holds_count _ _ _ _ _ c' HH ltac:(lia)). specialize (HM c' ltac:(lia)). rewrite cntlt_step. specialize (IH ltac:(lia)). lia. }
  rewrite !Hp in * by lia. rewrite A5. specialize (HR c). unfold cntlt in *. set (u := filter (fun e => ecol e <? c) ext) in *. set (v := in_col ext c) in *. rewrite EC in K2. rewrite Ew.
  assert (K : forall q, List.length u <= q -> q < List.length u + List.length v -> (map (fun e => Z.of_nat (erow e)) (u ++ v ++ w)).[q] = Z.of_nat (map erow v).[q - List.length u]).
  { intros q Q1 Q2. rewrite !map_app, aget_app2 by (rewrite map_length; auto). rewrite aget_app1 by (rewrite !map_length; lia). rewrite map_length. rewrite <- (map_map erow Z.of_nat). rewrite (aget_map Z.of_nat (map erow v)) by (rewrite map_length; lia). reflexivity. }
  rewrite !K by lia. specialize (HR (k - List.length u) (S k - List.length u) ltac:(lia) ltac:(rewrite map_length; lia)). lia.
Qed.

(** a diagonal is asked for and some columns are empty *)
Theorem C91_pattern_truncates m n sh (ps : list (nat * nat)) rest : let es := pat_ents one ps in
  let empties := filter (fun j => match in_col es j with [] => true | _ => false end) (seq 0 n) in
  fits m n es -> 0 < n ->
  exists A i x, read_mtx_csc_real zero ofZ sortp one m n (List.length ps) PATTERN sh COORDINATE (pat_toks ps ++ rest) true = Ok A /\
    holds n (es ++ map (fun j => (j, j, zero)) empties) (mp A) i x /\ mi A = firstn (List.length ps) i /\ mx A = firstn (List.length ps) x /\
    mnnz A = List.length (mi A) + List.length empties /\ (mp A).[n] = List.length (mx A) + List.length empties.
Proof.
  intros es empties HF Hn. destruct (real_general zero one ofZ sortp HS m n PATTERN sh (List.length ps) (pat_toks ps ++ rest) true es) as (A & ext & E & A1 & A2 & A3 & A4 & A5 & A6 & HP & HB & HR & HH); auto.
  { apply read_triplets_pat. } { unfold es, pat_ents. now rewrite map_length. }
  exists A, (map (fun e => Z.of_nat (erow e)) ext), (map eval ext). split; auto. split; [exact HH|]. assert (L : List.length es = List.length ps) by (unfold es, pat_ents; apply map_length). rewrite <- L, !firstn_map. split; auto. split; auto.
  pose proof (Permutation_length HP) as EL. unfold with_diags in EL. fold empties in EL. rewrite app_length, map_length in EL.
  rewrite A3, A5, A6, !map_length, firstn_length. split; [lia|]. destruct HH as (_ & _ & H & _). rewrite H. unfold with_diags. fold empties. rewrite app_length, map_length. lia.
Qed.

Theorem C91_pattern_short m n nnz sh (ps : list (nat * nat)) insert : List.length ps < nnz ->
  read_mtx_csc_real zero ofZ sortp one m n nnz PATTERN sh COORDINATE (pat_toks ps) insert = Err OOB.
Proof.
  intros H. assert (exists tv t, read_triplets_real zero ofZ one nnz false (pat_toks ps) = Ok tv /\ List.length tv = nnz /\ In t tv /\ tcol t = (-1)%Z) as (tv & t & E & L & HI & HB).
  { assert (exists d, nnz = List.length ps + d /\ 0 < d) as (d & -> & Hd) by (exists (nnz - List.length ps); lia). clear H. rewrite read_triplets_unf. rewrite <- (app_nil_r (pat_toks ps)), rt_loop_pat.
    destruct (rt_empty zero ofZ one false d (0 + List.length ps) ([] ++ map ofE (pat_ents one ps))) as (l & -> & L & HL). cbn [bind app fst]. destruct l as [|t l]; [cbn [List.length] in L; lia|].
    exists (map ofE (pat_ents one ps) ++ t :: l), t. split; [reflexivity|]. unfold pat_ents. split; [rewrite app_length, !map_length; lia|]. split; [apply in_or_app; right; left; auto|apply HL; left; auto]. }
  unfold read_mtx_csc_real. rewrite E; cbn [bind]; rewrite <- L, (compress_bad zero ofZ sortp n tv t insert) by (auto; lia); reflexivity.
Qed.

Theorem C91_pattern_bad_column m n sh (ps : list (nat * nat)) rest insert e : In e (pat_ents one ps) -> n <= ecol e ->
  read_mtx_csc_real zero ofZ sortp one m n (List.length ps) PATTERN sh COORDINATE (pat_toks ps ++ rest) insert = Err OOB.
Proof.
  intros HI HB. unfold read_mtx_csc_real. set (tv := map ofE (pat_ents one ps)). assert (L : List.length ps = List.length tv) by (unfold tv, pat_ents; now rewrite !map_length).
  assert (HI' : In (ofE e) tv) by (apply in_map; auto). assert (HB' : (tcol (ofE e) < 0 \/ Z.of_nat n <= tcol (ofE e))%Z) by (right; unfold ofE, tcol; cbn [fst snd]; lia).
  rewrite read_triplets_pat; fold tv; cbn [bind]; rewrite L; rewrite (compress_bad zero ofZ sortp n tv (ofE e) insert) by auto; reflexivity.
Qed.
End Pat.
Print Assumptions C91_pattern_rows.
Print Assumptions C91_pattern_truncates.
Print Assumptions C91_pattern_short.
Print Assumptions C91_pattern_bad_column.

(** a pattern of three rows in which column 1 is empty: four entries are described, three are stored *)
Example C91_pattern_case : read_mtx_csc_real 0%Z (fun z => z) inssort 1%Z 3 3 3 PATTERN GENERAL COORDINATE (pat_toks [(2, 2); (2, 0); (0, 0)]) true =
  Ok (mkMtx 3 3 4 0%Z [0; 2; 3; 4] [0; 2; 1]%Z [1; 1; 0]%Z).
Proof. vm_compute. reflexivity. Qed.
