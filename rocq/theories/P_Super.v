(** Properties of supernodes, their dependence graph (C41, C77). *)
From Coq Require Import ZifyBool ZifyNat.
From Verif Require Import Base Lib Lib2 Lib3 Spec SpecSuper Check M_Super L_Sparse2 L_Super L_Super2.

(** * C41 *)

Theorem C41_csc_supernodes : forall n Cp Ci Rp Ri limit, wf_csc n Cp Ci -> (forall u, u < n -> Cp.[u] < Cp.[S u]) ->
  exists c o m, createSupernode CSC_TYPE n Cp Ci Rp Ri limit = Ok (c, o, m) /\
    max_runs n (if (limit <? 1)%Z then n else Z.to_nat limit) (same_below Cp Ci) c /\
    length m = n /\ (forall s v, S s < length c -> c.[s] <= v < c.[S s] -> m.[v] = s) /\
    o = map (fun s => (Z.of_nat (length (column Cp Ci c.[s])) - Z.of_nat (c.[S s] - c.[s]) - 1)%Z) (seq 0 (length c - 1)).
Proof.
  intros n Cp Ci Rp Ri limit W NE. pose proof (createSupernode_csc n Cp Ci Rp Ri limit W NE) as G. apply wp_ok in G.
  destruct G as (((c & o) & m) & E & H1 & H2 & H3 & H4). exists c, o, m. splits; auto.
Qed.
Print Assumptions C41_csc_supernodes.

Theorem C41_csr_supernodes : forall n Cp Ci Rp Ri limit, wf_csc n Rp Ri -> (forall u, u < n -> Rp.[u] < Rp.[S u]) ->
  exists c o m, createSupernode CSR_TYPE n Cp Ci Rp Ri limit = Ok (c, o, m) /\
    max_runs n (if (limit <? 1)%Z then n else Z.to_nat limit) (same_left Rp Ri) c /\
    length m = n /\ (forall s v, S s < length c -> c.[s] <= v < c.[S s] -> m.[v] = s) /\
    o = map (fun s => (Z.of_nat (length (column Rp Ri c.[s])) - 1)%Z) (seq 0 (length c - 1)).
Proof.
  intros n Cp Ci Rp Ri limit W NE. pose proof (createSupernode_csr n Cp Ci Rp Ri limit W NE) as G. apply wp_ok in G.
  destruct G as (((c & o) & m) & E & H1 & H2 & H3 & H4). exists c, o, m. splits; auto.
Qed.
Print Assumptions C41_csr_supernodes.

(** class BCSCMatrix: one node more than the limit *)
Theorem C41_bcsc_supernodes : forall n Ap Ai limit, wf_csc n Ap Ai ->
  exists c, bcsc_supernodes_lower n Ap Ai limit = Ok c /\ max_runs n (S (if limit =? 0 then n else limit)) (same_below Ap Ai) c.
Proof.
  intros n Ap Ai limit W. assert (G : wp (bcsc_supernodes_lower n Ap Ai limit) (max_runs n (S (if limit =? 0 then n else limit)) (same_below Ap Ai)))
    by (apply bcsc_lower_wp; auto). apply wp_ok in G. exact G.
Qed.
Print Assumptions C41_bcsc_supernodes.

Theorem C41_bcsc_upper : forall n Ap Ai limit, wf_csc n Ap Ai ->
  exists c, bcsc_supernodes_upper n Ap Ai limit = Ok c /\ max_runs_back n (S (if limit =? 0 then n else limit)) (same_above Ap Ai) c.
Proof.
  intros n Ap Ai limit W. assert (G : wp (bcsc_supernodes_upper n Ap Ai limit) (max_runs_back n (S (if limit =? 0 then n else limit)) (same_above Ap Ai)))
    by (apply bcsc_upper_wp; auto). apply wp_ok in G. exact G.
Qed.
Print Assumptions C41_bcsc_upper.

(** the limit is exceeded: two columns in a block although the limit is one *)
Theorem C41_bcsc_limit_refuted : exists n Ap Ai limit c, wf_csc n Ap Ai /\ diag_first n Ap Ai /\ lower_tri n Ap Ai /\ sorted_cols n Ap Ai /\ 0 < limit /\
  bcsc_supernodes_lower n Ap Ai limit = Ok c /\ limit < c.[1] - c.[0].
Proof.
  exists 3, [0;3;5;6], [0;1;2;1;2;2], 1, [0;2;3]. splits.
  - apply wf_cscb_ok. vm_compute. reflexivity.
  - apply diag_firstb_ok. vm_compute. reflexivity.
  - apply lower_trib_ok. vm_compute. reflexivity.
  - apply sorted_colsb_ok. vm_compute. reflexivity.
  - lia.
  - vm_compute. reflexivity.
  - simpl. lia.
Qed.
Print Assumptions C41_bcsc_limit_refuted.

(** the columns of a run form a dense triangle on the diagonal, followed by equal rows below *)
Theorem C41_csc_dense_block : forall n w Lp Li c s v, wf_csc n Lp Li -> diag_first n Lp Li -> max_runs n w (same_below Lp Li) c ->
  S s < length c -> c.[s] <= v < c.[S s] -> column Lp Li c.[s] = seq c.[s] (v - c.[s]) ++ column Lp Li v.
Proof.
  intros n w Lp Li c s v W D R Hs Hv. pose proof R as (R1 & R2 & R3 & R4). destruct (R4 s Hs) as (_ & R5 & _).
  destruct (run_bounds _ _ _ _ s R Hs) as (_ & B).
  destruct (R5 v Hv) as (V1 & ->). rewrite <- (firstn_skipn (v - c.[s]) (column Lp Li c.[s])) at 1. f_equal.
  apply list_ext; [rewrite firstn_length, seq_length; lia|]. intros i Hi. rewrite firstn_length in Hi. rewrite aget_firstn by lia.
  rewrite aget_seq by lia. destruct (R5 (c.[s] + i) ltac:(lia)) as (I1 & I2). apply (f_equal (fun l => l.[0])) in I2.
  replace (c.[s] + i - c.[s]) with i in I2 by lia. rewrite aget_skipn in I2. replace (i + 0) with i in I2 by lia. rewrite <- I2.
  destruct (D (c.[s] + i) ltac:(lia)) as (D1 & D2 & _). rewrite (column_at n) by (auto; lia). now rewrite Nat.add_0_r.
Qed.
Print Assumptions C41_csc_dense_block.

Lemma sorted_range (t : list nat) a : (forall i, i < length t -> a < t.[i] <= a + length t) -> (forall i j, i < j -> j < length t -> t.[i] < t.[j]) -> t = seq (S a) (length t).
Proof.
  intros H1 H2. apply list_ext; [now rewrite seq_length|]. intros i Hi. rewrite aget_seq by auto.
  assert (U : forall k, k <= length t - 1 - i -> t.[i] + k <= t.[i + k]).
  { induction k; intros Hk; [rewrite !Nat.add_0_r; lia|]. specialize (IHk ltac:(lia)). pose proof (H2 (i + k) (i + S k) ltac:(lia) ltac:(lia)). lia. }
  assert (L : forall k, k <= i -> S a + k <= t.[k]).
  { induction k; intros Hk; [pose proof (H1 0 ltac:(lia)); lia|]. specialize (IHk ltac:(lia)). pose proof (H2 k (S k) ltac:(lia) ltac:(lia)). lia. }
  specialize (U (length t - 1 - i) ltac:(lia)). specialize (L i ltac:(lia)). pose proof (H1 (i + (length t - 1 - i)) ltac:(lia)). lia.
Qed.

(** [l = k ++ t], both sorted, both ending with their own number: [t] is the range between *)
Lemma tail_range n Lp Li first v t : wf_csc n Lp Li -> diag_last n Lp Li -> sorted_cols n Lp Li -> first < v -> v < n -> length t = v - first ->
  column Lp Li v = column Lp Li first ++ t -> t = seq (S first) (v - first).
Proof.
  intros W DL SC Hf Hv Ht E. rewrite <- Ht. destruct (DL first ltac:(lia)) as (F1 & F2). destruct (DL v Hv) as (V1 & V2).
  pose proof (col_of_sorted n Lp Li W v SC Hv) as SL. change (col_of Lp Li v) with (column Lp Li v) in SL. rewrite E in SL.
  assert (LF : length (column Lp Li first) = Lp.[S first] - Lp.[first]) by (apply (column_length n); auto; lia).
  assert (EL : length (column Lp Li first ++ t) = Lp.[S v] - Lp.[v]) by (rewrite <- E; apply (column_length n); auto).
  rewrite app_length in EL.
  assert (A1 : (column Lp Li first ++ t).[length (column Lp Li first) - 1] = first).
  { rewrite aget_app1 by lia. rewrite (column_at n) by (auto; lia). rewrite LF. transitivity Li.[Lp.[S first] - 1]; [f_equal; lia|auto]. }
  assert (A2 : (column Lp Li first ++ t).[length (column Lp Li first) + (length t - 1)] = v).
  { rewrite <- E. rewrite (column_at n) by (auto; lia). transitivity Li.[Lp.[S v] - 1]; [f_equal; lia|auto]. }
  assert (TT : forall i, i < length t -> t.[i] = (column Lp Li first ++ t).[length (column Lp Li first) + i]).
  { intros i Hi. rewrite aget_app2 by lia. f_equal. lia. }
  pose proof (app_length (column Lp Li first) t) as AL. unfold sorted_lt in SL.
  apply sorted_range.
  - intros i Hi. rewrite (TT i Hi). split.
    + pose proof (SL (length (column Lp Li first) - 1) (length (column Lp Li first) + i)). lia.
    + rewrite Ht. replace (first + (v - first)) with v by lia. destruct (Nat.eq_dec i (length t - 1)) as [->|]; [lia|]. pose proof (SL (length (column Lp Li first) + i) (length (column Lp Li first) + (length t - 1))). lia.
  - intros i j Hij Hj. rewrite (TT i), (TT j) by lia. apply SL; lia.
Qed.

(** the rows of a run: the pattern of the first one and a dense triangle *)
Theorem C41_csr_dense_block : forall n w Lp Li c s v, wf_csc n Lp Li -> diag_last n Lp Li -> sorted_cols n Lp Li -> max_runs n w (same_left Lp Li) c ->
  S s < length c -> c.[s] <= v < c.[S s] -> column Lp Li v = column Lp Li c.[s] ++ seq (S c.[s]) (v - c.[s]).
Proof.
  intros n w Lp Li c s v W D SC R Hs Hv. pose proof R as (R1 & R2 & R3 & R4). destruct (R4 s Hs) as (_ & R5 & _).
  destruct (run_bounds _ _ _ _ s R Hs) as (_ & B).
  destruct (R5 v Hv) as (t & T1 & T2). destruct (Nat.eq_dec v c.[s]) as [->|].
  - rewrite Nat.sub_diag. simpl. now rewrite app_nil_r.
  - rewrite T2. f_equal. eapply tail_range; eauto; lia.
Qed.
Print Assumptions C41_csr_dense_block.

Theorem C41_upper_dense_block : forall n w Lp Li c s v, wf_csc n Lp Li -> diag_last n Lp Li -> sorted_cols n Lp Li -> max_runs_back n w (same_above Lp Li) c ->
  S s < length c -> (c.[S s] < Z.of_nat v <= c.[s])%Z -> (c.[s] < Z.of_nat n)%Z ->
  column Lp Li (Z.to_nat c.[s]) = column Lp Li v ++ seq (S v) (Z.to_nat c.[s] - v).
Proof.
  intros n w Lp Li c s v W D SC (R1 & R2 & R3 & R4) Hs Hv Hn. destruct (R4 s Hs) as (_ & _ & R5 & _).
  destruct (R5 v Hv) as (t & T1 & T2). destruct (Nat.eq_dec v (Z.to_nat c.[s])) as [->|].
  - rewrite Nat.sub_diag. simpl. now rewrite app_nil_r.
  - rewrite T2. f_equal. eapply tail_range; eauto; lia.
Qed.
Print Assumptions C41_upper_dense_block.

(** columns 0, 1, 2 share rows 3, 4; column 3 stands alone with 4 *)
Example C41_case : let Lp := [0;5;9;12;13;14] in let Li := [0;1;2;3;4; 1;2;3;4; 2;3;4; 3; 4] in
  wf_csc 5 Lp Li /\ diag_first 5 Lp Li /\ sorted_cols 5 Lp Li /\ (forall u, u < 5 -> Lp.[u] < Lp.[S u]) /\
  createSupernode CSC_TYPE 5 Lp Li [] [] 0 = Ok ([0;3;4;5], [1;-1;-1]%Z, [0;0;0;1;2]) /\
  bcsc_supernodes_lower 5 Lp Li 0 = Ok [0;3;4;5].
Proof.
  cbv zeta. assert (W : diag_first 5 [0;5;9;12;13;14] [0;1;2;3;4; 1;2;3;4; 2;3;4; 3; 4]) by (apply diag_firstb_ok; vm_compute; reflexivity). splits; auto.
  - apply wf_cscb_ok. vm_compute. reflexivity.
  - apply sorted_colsb_ok. vm_compute. reflexivity.
  - intros u Hu. apply (W u Hu).
Qed.

(** * C77 *)

Theorem C77_dependence_graph : forall ty n Cp Ci Rp Ri nnz limit,
  wf_csc n Cp Ci -> diag_first n Cp Ci -> lower_tri n Cp Ci -> wf_csc n Rp Ri -> (forall u, u < n -> Rp.[u] < Rp.[S u]) -> Cp.[n] <= nnz ->
  exists c dp ds, superNodal ty n Cp Ci (Some (Rp, Ri, nnz)) limit = Ok (c, (dp, ds)) /\
    max_runs n (if (limit <? 1)%Z then n else Z.to_nat limit) (match ty with CSC_TYPE => same_below Cp Ci | CSR_TYPE => same_left Rp Ri end) c /\
    wf_csc (length c - 1) dp ds /\ length dp = length c /\ length ds = dp.[length c - 1] /\
    diag_first (length c - 1) dp ds /\ lower_tri (length c - 1) dp ds /\ sorted_cols (length c - 1) dp ds /\
    forall s t, edge (length c - 1) dp ds s t <-> run_edge (edge n Cp Ci) c s t.
Proof.
  intros ty n Cp Ci Rp Ri nnz limit W D LT WR NE HN.
  set (good := fun (same : nat -> nat -> Prop) (r : list nat * (list nat * list nat)) => let '(c, (dp, ds)) := r in
    max_runs n (sup_limit n limit) same c /\
    wf_csc (length c - 1) dp ds /\ length dp = length c /\ length ds = dp.[length c - 1] /\
    diag_first (length c - 1) dp ds /\ lower_tri (length c - 1) dp ds /\ sorted_cols (length c - 1) dp ds /\
    forall s t, edge (length c - 1) dp ds s t <-> run_edge (edge n Cp Ci) c s t).
  assert (NC : stored n Cp) by (intros u Hu; apply (D u Hu)).
  assert (G : forall same offv r, sup_result n (sup_limit n limit) same offv r ->
     wp (let '(ptr, _, m) := r in D <- createDepDAG nnz Cp Ci ptr m ;; Ok (ptr, D)) (good same)).
  { intros same offv ((c & o) & m) (R & _ & M1 & M2). apply wp_bind.
    apply createDepDAG_wp with (n := n) (w := sup_limit n limit) (same := same); auto.
    intros f dp ds C F. apply wp_ret. split; auto.
    eapply depdag_graph; eauto. }
  assert (H : wp (superNodal ty n Cp Ci (Some (Rp, Ri, nnz)) limit) (good (match ty with CSC_TYPE => same_below Cp Ci | CSR_TYPE => same_left Rp Ri end))).
  { unfold superNodal. apply wp_bind. destruct ty.
    - eapply wp_mono; [apply createSupernode_csc; auto|]. intros r Hr. eapply G; eauto.
    - eapply wp_mono; [apply createSupernode_csr; auto|]. intros r Hr. eapply G; eauto. }
  apply wp_ok in H. destruct H as ((c & dp & ds) & E & H). exists c, dp, ds. split; auto.
Qed.
Print Assumptions C77_dependence_graph.

(** a null A_CSR is dereferenced for both types *)
Theorem C77_null_rows : forall ty n Cp Ci limit, wf_csc n Cp Ci -> (forall u, u < n -> Cp.[u] < Cp.[S u]) -> superNodal ty n Cp Ci None limit = Err OOB.
Proof.
  intros [] n Cp Ci limit W NE; [|reflexivity]. destruct (C41_csc_supernodes n Cp Ci [] [] limit W NE) as (c & o & m & E & _).
  unfold superNodal. rewrite E. reflexivity.
Qed.
Print Assumptions C77_null_rows.

(** two supernodes: 0, 1 with rows 2, 3 below; 2, 3 *)
Example C77_case : let Lp := [0;4;7;9;10] in let Li := [0;1;2;3; 1;2;3; 2;3; 3] in
  let Rp := [0;1;3;6;10] in let Ri := [0; 0;1; 0;1;2; 0;1;2;3] in
  wf_csc 4 Lp Li /\ diag_first 4 Lp Li /\ lower_tri 4 Lp Li /\ wf_csc 4 Rp Ri /\ Lp.[4] <= 10 /\
  superNodal CSC_TYPE 4 Lp Li (Some (Rp, Ri, 10)) 2 = Ok ([0;2;4], ([0;2;3], [0;1;1])) /\
  superNodal CSR_TYPE 4 Lp Li (Some (Rp, Ri, 10)) 3 = Ok ([0;3;4], ([0;2;3], [0;1;1])).
Proof.
  cbv zeta. splits; auto.
  - apply wf_cscb_ok. vm_compute. reflexivity.
  - apply diag_firstb_ok. vm_compute. reflexivity.
  - apply lower_trib_ok. vm_compute. reflexivity.
  - apply wf_cscb_ok. vm_compute. reflexivity.
Qed.
