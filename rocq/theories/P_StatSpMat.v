(** C160: the statistics of the class StatSpMat (profiler/old). *)
From Coq Require Import ZifyBool ZifyNat.
From Verif Require Import Base Lib Lib2 Lib3 Spec SpecSolve SpecGroup SpecRuns Check CheckS M_LevelSet M_SpTRSV M_Runs
  L_SpTRSV L_SpTRSV2 P_LevelSet P_SpTRSV P_Pipeline L_Group L_Runs L_Runs2 P_Runs M_Conv P_Circle M_Stat P_Stat M_StatSpMat.

(** * Sum and deviation *)

Definition sumZ (l : list Z) : Z := fold_right Z.add 0%Z l.

Lemma fold_add : forall l a, fold_left Nat.add l a = a + list_sum l.
Proof. induction l as [|x l IH]; intros a; cbn [fold_left list_sum fold_right]; [lia|]. rewrite IH. unfold list_sum. lia. Qed.
Lemma sum_costs_ok l : sum_costs l = list_sum l.
Proof. unfold sum_costs. now rewrite fold_add. Qed.

Lemma fold_addZ (g : nat -> Z) : forall l a, fold_left (fun acc c => (acc + g c)%Z) l a = (a + sumZ (map g l))%Z.
Proof. unfold sumZ. induction l as [|x l IH]; intros a; cbn [fold_left map fold_right]; [lia|]. rewrite IH. lia. Qed.

Lemma squares k S l : sumZ (map (fun c => ((k * Z.of_nat c - S) * (k * Z.of_nat c - S))%Z) l) =
  (k * k * sumZ (map (fun c => (Z.of_nat c * Z.of_nat c)%Z) l) - 2 * k * S * Z.of_nat (list_sum l) + Z.of_nat (length l) * S * S)%Z.
Proof.
  unfold sumZ. induction l as [|x l IH]; cbn [map fold_right length list_sum]; [lia|]. rewrite IH. unfold list_sum. cbn [fold_right].
  rewrite !Nat2Z.inj_add, Nat2Z.inj_succ. ring.
Qed.

(** the square of the standard deviation of the sample: (k * sum of squares - (sum)^2) / (k (k-1)) *)
Definition sample_variance (l : list nat) (q : Z * Z) : Prop :=
  let k := Z.of_nat (length l) in let S := Z.of_nat (list_sum l) in
  (fst q * (k * (k - 1)) = (k * sumZ (map (fun c => Z.of_nat c * Z.of_nat c) l) - S * S) * snd q)%Z /\ (0 < snd q)%Z.

Lemma deviation_ok l : 2 <= length l -> sample_variance l (deviation l).
Proof.
  intros H. unfold sample_variance, deviation. cbv zeta. destruct (length l =? 0) eqn:E; [apply Nat.eqb_eq in E; lia|]. cbn [fst snd].
  rewrite (fold_addZ (fun c => ((Z.of_nat (length l) * Z.of_nat c - Z.of_nat (sum_costs l)) * (Z.of_nat (length l) * Z.of_nat c - Z.of_nat (sum_costs l)))%Z)).
  rewrite squares, sum_costs_ok. split; [ring|]. nia.
Qed.
Lemma deviation_one l : length l = 1 -> deviation l = (0, 0)%Z.
Proof.
  intros H. destruct l as [|c [|]]; try discriminate. unfold deviation, sum_costs. cbn [length Nat.eqb fold_left]. f_equal; lia.
Qed.

(** * The graph *)

Lemma rows_graph n Lp Li : wf_rows n Lp Li -> rows_lower n Lp Li ->
  exists D, fs_csr_inspector_rows n Lp Li (repeat [] n) = Ok D /\ length D = n /\ forall u v, adj D u v <-> row_dep n Lp Li u v.
Proof.
  intros ((W1 & W2 & W3 & W4 & W5) & NE) RL.
  assert (HB : forall i, i < n -> Lp.[S i] <= Lp.[n]) by (intros i Hi; apply (mono_le (aget Lp) n); auto).
  enough (G : wp (fs_csr_inspector_rows n Lp Li (repeat [] n)) (fun D => length D = n /\ forall u v, adj D u v <-> row_dep n Lp Li u v)).
  { apply wp_ok in G. destruct G as (D & E & H). eauto. }
  unfold fs_csr_inspector_rows.
  apply (wp_for (fun m D => length D = n /\ forall u v, adj D u v <-> row_dep n Lp Li u v /\ v < m)); [lia| | |].
  - rewrite repeat_length. split; auto. intros u v. unfold adj. rewrite repeat_length. split; [|lia].
    intros [Hu H]. rewrite aget_repeat in H by auto. easy.
  - intros i D Hi [LD HD]. pose proof (HB i ltac:(lia)). pose proof (NE i ltac:(lia)). wp1. wp1; [lia|]. wp1. wp1; [lia|].
    apply (wp_for (fun k D => length D = n /\ forall u v, adj D u v <-> (row_dep n Lp Li u v /\ v < i) \/ (v = i /\ exists j, Lp.[i] <= j < k /\ Li.[j] = u))).
    + lia.
    + split; auto. intros u v. rewrite HD. split; [tauto|]. intros [H1|(_ & j & Hj & _)]; [auto|lia].
    + intros k D' Hk [LD' HD']. wp1. wp1; [lia|]. pose proof (W5 k ltac:(lia)).
      assert (Hd : row_dep n Lp Li Li.[k] i) by (split; [lia|]; exists k; split; [lia|auto]). pose proof (RL _ _ Hd).
      destruct (Nat.eqb_spec Li.[k] i) as [E|E]; [lia|]. wp1. wp1; [lia|]. wp1; [lia|].
      rewrite upd_length. split; auto. intros u v. unfold adj in *. rewrite upd_length.
      rewrite aget_upd by lia. destruct (Nat.eqb_spec u Li.[k]) as [->|Hu].
      * rewrite in_app_iff. cbn [In]. split.
        -- intros (Q2 & [Q3|[<-|[]]]).
           ++ destruct (proj1 (HD' Li.[k] v) (conj Q2 Q3)) as [Q4|(Q4 & j & Hj & Ej)]; [auto|]. right. split; auto. exists j. split; [lia|auto].
           ++ right. split; auto. exists k. split; [lia|auto].
        -- intros [Q2|(-> & j & Hj & Ej)].
           ++ split; [lia|]. left. now apply (proj2 (HD' Li.[k] v) (or_introl Q2)).
           ++ split; [lia|]. auto.
      * rewrite HD'. split; intros [Q2|(Q2 & j & Hj & Ej)]; auto; right; split; auto; exists j; (split; [|auto]); [lia|].
        destruct (Nat.eq_dec j k) as [->|]; [congruence|lia].
    + intros D' [LD' HD']. split; auto. intros u v. rewrite HD'. split.
      * intros [[Q2 Q3]|(-> & j & Hj & Ej)]; [auto with arith|]. split; [|lia]. split; [lia|]. exists j. split; [lia|auto].
      * intros [Q2 Q3]. destruct (Nat.eq_dec v i) as [->|]; [right|left; split; auto; lia]. split; auto. destruct Q2 as (_ & j & Hj & Ej). exists j. split; [lia|auto].
  - intros D [LD HD]. split; auto. intros u v. rewrite HD. split; [tauto|]. intros H. split; auto. apply H.
Qed.

Lemma uniq_sorted : forall l, sorted_lt l -> uniq l = l.
Proof.
  induction l as [|x l IH]; intros H; [reflexivity|]. destruct l as [|y l]; [reflexivity|].
  assert (x < y) by (apply (H 0 1); cbn; lia).
  change (uniq (x :: y :: l)) with (if x =? y then uniq (y :: l) else x :: uniq (y :: l)).
  destruct (Nat.eqb_spec x y); [lia|]. f_equal. apply IH. intros i j Hij Hj. apply (H (S i) (S j)); cbn [length] in *; lia.
Qed.

Lemma pack_same n ng D : (forall g, g < length D -> sorted_lt D.[g]) -> pack_gDAG n ng D = pack_group_dag n ng D.
Proof.
  intros H. assert (E : map uniq D = D).
  { apply nth_ext with (d := []) (d' := []); rewrite map_length; auto. intros g Hg. change [] with (uniq []) at 1. rewrite map_nth.
    apply uniq_sorted. exact (H g Hg). }
  unfold pack_group_dag. rewrite E. reflexivity.
Qed.

(** * The constructors *)

(** all the statistics that do not depend on the schedule *)
Definition matrix_part {T} (s : @stat T) (n nnz : nat) (Lp Li : list nat) (threads : nat) : Prop :=
  sn s = n /\ snnz s = nnz /\ snnz_rows s = (nnz, n) /\ score s = threads /\
  sflops s = Some (2 * (Lp.[n] - n) + n) /\ saccess s = Some (3 * (Lp.[n] - n) + 2 * n) /\ sreuse s = Some (total (reuse_of Lp Li) 1 n).

(** the costs [lcost] of the levels, their sum, mean and deviation; quotients by the number of levels *)
Definition cost_part {T} (s : @stat T) (nnz parts levels : nat) (lcost : list nat) : Prop :=
  length lcost = levels /\ ssys s = Some levels /\ sparallel s = Some (parts, levels) /\ snnz_levels s = Some (nnz, levels) /\
  ssum s = Some (list_sum lcost) /\ savg s = Some (list_sum lcost, levels) /\
  (2 <= levels -> exists q, svar s = Some q /\ sample_variance lcost q) /\
  (levels = 1 -> svar s = Some (0, 0)%Z) /\ (levels = 0 -> svar s = Some (0, 2 ^ 64 - 1)%Z).

Lemma finish_ok {T} (zero : T) n nnz Lp Li threads ng np nlev over parts lcost : wf_rows n Lp Li -> length lcost = over ->
  forall counts, fs_csr_stat n Lp Li = Ok counts ->
  let s := finish (Setup zero n nnz threads) ng np counts nlev over over parts lcost in
  matrix_part s n nnz Lp Li threads /\ cost_part s nnz parts over lcost /\ sgroup s = Some ng /\ spart s = np /\ slevels s = Some nlev /\
  st_serial s = Some zero /\ st_level s = Some zero /\ st_lbc s = Some zero /\ st_group s = None.
Proof.
  intros [W NE] HL counts E. rewrite (C114_solve_counts n Lp Li W NE) in E. injection E as <-. cbv zeta.
  unfold finish, Setup, matrix_part, cost_part. cbn [sn snnz snnz_rows score sflops saccess sreuse sparallel snnz_levels ssum savg svar sgroup spart slevels ssys st_serial st_level st_lbc st_group].
  rewrite sum_costs_ok, HL. splits; auto.
  - intros H. exists (deviation lcost). split; auto. apply deviation_ok. lia.
  - intros H. rewrite deviation_one by lia. reflexivity.
  - intros ->. destruct lcost; [reflexivity|discriminate].
Qed.

(** the rows a level set executes in position [j] *)
Definition group_rows (gp gs ls : list nat) (j : nat) : list nat := slice gs gp.[ls.[j]] gp.[S ls.[j]].

Definition level_stats {T} (s : @stat T) (zero : T) (n nnz : nat) (Lp Li : list nat) (E : nat -> nat -> Prop) (threads : nat) (tid : nat -> nat -> nat) : Prop :=
  exists ng gp gs inv k lp ls lcost,
    runs n (prev_in_row Lp Li) ng gp gs inv /\ level_partition ng k lp ls /\
    (forall l, l < k -> exists g, in_level lp ls l g) /\
    (forall l g, l < k -> in_level lp ls l g -> depth_is (quotient E ng gp gs) g l) /\
    (forall l, l < k -> largest_gap (load Lp (group_rows gp gs ls) (tid l) lp.[l] lp.[S l]) threads lcost.[l]) /\
    matrix_part s n nnz Lp Li threads /\ cost_part s nnz ng k lcost /\
    sgroup s = Some ng /\ spart s = Some ng /\ slevels s = Some k /\
    st_serial s = Some zero /\ st_level s = Some zero /\ st_lbc s = Some zero /\ st_group s = None.

Lemma quotient_ext (E F : nat -> nat -> Prop) ng gp gs : (forall u v, E u v <-> F u v) -> forall g h, quotient E ng gp gs g h <-> quotient F ng gp gs g h.
Proof.
  intros H g h. unfold quotient. split; intros (H1 & H2 & H3 & u & v & Hu & Hv & He); splits; auto; exists u, v; splits; auto; now apply H.
Qed.
Lemma chain_ext (E F : nat -> nat -> Prop) : (forall u v, E u v -> F u v) -> forall u v k, chain E u v k -> chain F u v k.
Proof. intros H u v k C. induction C; econstructor; eauto. Qed.
Lemma depth_ext (E F : nat -> nat -> Prop) v d : (forall u w, E u w <-> F u w) -> depth_is E v d -> depth_is F v d.
Proof.
  intros H [[u C] M]. split; [exists u; eapply chain_ext; [|exact C]; apply H|]. intros w k C'. apply (M w). eapply chain_ext; [|exact C']. apply H.
Qed.

Lemma up_acyclic (E : nat -> nat -> Prop) : (forall u v, E u v -> u < v) -> acyclic E.
Proof.
  intros H. assert (G : forall u v k, chain E u v k -> u + k <= v).
  { induction 1 as [|u v w k C IH He]; [lia|]. apply H in He. lia. }
  intros u k C. apply G in C. lia.
Qed.

(** For a graph given by the caller the groups must not depend on each other in a circle. *)
Theorem C160_given_graph : forall (T : Type) (zero : T) threads tid n nnz Lp Li D, 0 < threads -> (forall l j, tid l j < threads) ->
  wf_rows n Lp Li -> length D = n -> adj_wf D ->
  (forall ng gp gs inv, runs n (prev_in_row Lp Li) ng gp gs inv -> acyclic (quotient (adj D) ng gp gs)) ->
  exists s, StatSpMat_DAG zero threads tid n nnz Lp Li D = Ok s /\ level_stats s zero n nnz Lp Li (adj D) threads tid.
Proof.
  intros T zero threads tid n nnz Lp Li D HT TB WR LD AW AC. pose proof WR as [W NE].
  destruct (C39_csr_runs n Lp Li (repeat 0 (n + 1)) (repeat 0 n) (repeat 0 n) W) as (ng & gp & gs & inv & E1 & L1 & L2 & L3 & Hng & R); try (rewrite repeat_length; lia).
  rewrite !repeat_length in *. destruct (C39_runs_partition _ _ _ _ _ _ R) as (GP & HI & _).
  destruct (C109_group_dag D ng gp gs inv) as (gD & E2 & LG & HG); rewrite ?LD; auto; try lia.
  assert (E3 : exists gv gedg, pack_gDAG n ng gD = Ok (gv, gedg) /\ wf_csc ng gv gedg /\ diag_first ng gv gedg /\
    (forall g h, edge ng gv gedg g h <-> quotient (adj D) ng gp gs g h)).
  { rewrite pack_same by (intros g Hg; apply HG; lia).
    pose proof (pack_group_dag_wp n ng gD Hng LG) as G. apply wp_ok in G. destruct G as ([gv gedg] & EP & HP). exists gv, gedg. split; auto.
    destruct (packed_graph n ng gD gv gedg (quotient (adj D) ng gp gs)) as (P1 & P2 & P3 & _); auto.
    - intros g Hg. destruct (HG g Hg) as [S1 S2]. split; auto. intros i j Hij Hj. destruct (Nat.eq_dec i j) as [->|]; [lia|]. apply Nat.lt_le_incl, S1; lia.
    - intros g h (H1 & H2 & H3 & _). auto. }
  destruct E3 as (gv & gedg & E3 & WG & DG & EG).
  destruct (C04_queue_variant ng gv gedg (repeat 0 (n + 1)) (repeat 0 n) WG DG) as (k & lp & ls & E4 & LP & LO & NEl & DE & K1 & K2); rewrite ?repeat_length; try lia.
  { specialize (AC _ _ _ _ R). intros u m C. apply (AC u m). eapply chain_ext; [|exact C]. intros a b H. now apply EG. }
  { rewrite aget_repeat by lia. reflexivity. }
  destruct (C115_levelset_balance threads tid n ng Lp gp gs k lp ls (repeat 0 k)) as (lcost & E5 & LC & HC & _); auto; try lia.
  { destruct W as (W1 & _). lia. }
  { rewrite repeat_length. lia. }
  rewrite repeat_length in LC.
  destruct (finish_ok zero n nnz Lp Li threads ng (Some ng) k k ng lcost WR LC _ (C114_solve_counts n Lp Li W NE)) as (F1 & F2 & F3 & F4 & F5 & F6 & F7 & F8 & F9).
  eexists. split.
  - unfold StatSpMat_DAG. rewrite (C114_solve_counts n Lp Li W NE). cbn [bind]. rewrite E1. cbn [bind]. rewrite E2. cbn [bind]. rewrite E3. cbn [bind]. rewrite E4. cbn [bind]. rewrite E5. cbn [bind]. reflexivity.
  - exists ng, gp, gs, inv, k, lp, ls, lcost. splits; auto.
    intros l g Hl Hg. eapply depth_ext; [exact EG|]. auto.
Qed.
Print Assumptions C160_given_graph.

(** With the dependences of the matrix itself every lower triangular matrix works. *)
Theorem C160_levels : forall (T : Type) (zero : T) threads tid n nnz Lp Li, 0 < threads -> (forall l j, tid l j < threads) ->
  wf_rows n Lp Li -> rows_lower n Lp Li ->
  exists s, StatSpMat_levels zero threads tid n nnz Lp Li = Ok s /\ level_stats s zero n nnz Lp Li (row_dep n Lp Li) threads tid.
Proof.
  intros T zero threads tid n nnz Lp Li HT TB WR RL. destruct (rows_graph n Lp Li WR RL) as (D & E & LD & HD).
  destruct (C160_given_graph T zero threads tid n nnz Lp Li D) as (s & Es & Hs); auto.
  - intros u v Hu Hv. rewrite LD. destruct (proj1 (HD u v) (conj Hu Hv)) as [H _]. exact H.
  - intros ng gp gs inv R. destruct (C39_runs_partition _ _ _ _ _ _ R) as (_ & _ & HO).
    apply up_acyclic. intros g h H. apply (HO (adj D)); auto. intros u v Hu. apply RL. now apply HD.
  - exists s. split; [unfold StatSpMat_levels; rewrite E; exact Es|].
    destruct Hs as (ng & gp & gs & inv & k & lp & ls & lcost & H1 & H2 & H3 & H4 & H5). exists ng, gp, gs, inv, k, lp, ls, lcost.
    split; auto. split; auto. split; auto. split; auto. intros l g Hl Hg. eapply depth_ext; [|apply (H4 l g Hl Hg)]. apply quotient_ext. exact HD.
Qed.
Print Assumptions C160_levels.

(** A schedule of rows: the number of parts stays unset. *)
Theorem C160_lbc : forall (T : Type) (zero : T) threads tid n nnz Lp Li no lp pp np parts levels, 0 < threads -> (forall l j, tid l j < threads) ->
  wf_rows n Lp Li -> sched_wf n no lp pp np -> (forall k, k < n -> np.[k] < n) ->
  exists s lcost, StatSpMat_lbc zero threads tid n nnz Lp Li lp pp np no parts levels = Ok s /\
    (forall l, l < no -> largest_gap (load Lp (fun j => slice np pp.[j] pp.[S j]) (tid l) lp.[l] lp.[S l]) threads lcost.[l]) /\
    matrix_part s n nnz Lp Li threads /\ cost_part s nnz parts no lcost /\ sgroup s = Some parts /\ spart s = None /\ slevels s = Some levels /\
    PrintData s = Err Uninit /\ forall t, PrintData (set_glevel_time t s) = Err Uninit.
Proof.
  intros T zero threads tid n nnz Lp Li no lp pp np parts levels HT TB WR SW HN. pose proof WR as [W NE].
  destruct (C115_lbc_balance threads tid n Lp no lp pp np (repeat 0 no)) as (lcost & E & LC & HC & _); auto.
  { destruct W as (W1 & _). lia. }
  { rewrite repeat_length. lia. }
  rewrite repeat_length in LC.
  destruct (finish_ok zero n nnz Lp Li threads parts None levels no parts lcost WR LC _ (C114_solve_counts n Lp Li W NE)) as (F1 & F2 & F3 & F4 & F5 & F6 & F7 & F8 & F9).
  eexists. exists lcost. split; [unfold StatSpMat_lbc; rewrite (C114_solve_counts n Lp Li W NE); cbn [bind]; rewrite E; reflexivity|].
  splits; auto.
Qed.
Print Assumptions C160_lbc.

Theorem C160_group_lbc : forall (T : Type) (zero : T) threads tid n ng nnz Lp Li gp gs no lp pp np parts levels groups, 0 < threads -> (forall l j, tid l j < threads) ->
  wf_rows n Lp Li -> group_partition n ng gp gs -> ng < length gp -> n <= length gs -> sched_wf ng no lp pp np -> (forall k, k < ng -> np.[k] < ng) ->
  exists s lcost, StatSpMat_group_lbc zero threads tid n nnz Lp Li lp pp np gp gs no parts levels groups = Ok s /\
    (forall l, l < no -> largest_gap (load Lp (fun j => flat_map (fun g => slice gs gp.[g] gp.[S g]) (slice np pp.[j] pp.[S j])) (tid l) lp.[l] lp.[S l]) threads lcost.[l]) /\
    matrix_part s n nnz Lp Li threads /\ cost_part s nnz lp.[no] no lcost /\ sgroup s = Some groups /\ spart s = Some lp.[no] /\ slevels s = Some levels /\
    st_group s = None /\ PrintData s = Err Uninit.
Proof.
  intros T zero threads tid n ng nnz Lp Li gp gs no lp pp np parts levels groups HT TB WR GP LG LS SW HN. pose proof WR as [W NE].
  destruct (C115_group_lbc_balance threads tid n ng Lp gp gs no lp pp np (repeat 0 no)) as (lcost & E & LC & HC & _); auto.
  { destruct W as (W1 & _). lia. }
  { rewrite repeat_length. lia. }
  rewrite repeat_length in LC.
  destruct (finish_ok zero n nnz Lp Li threads groups (Some lp.[no]) levels no lp.[no] lcost WR LC _ (C114_solve_counts n Lp Li W NE)) as (F1 & F2 & F3 & F4 & F5 & F6 & F7 & F8 & F9).
  eexists. exists lcost. split.
  { unfold StatSpMat_group_lbc. destruct SW as (S1 & _). rewrite rd_ok by lia. cbn [bind]. rewrite (C114_solve_counts n Lp Li W NE); cbn [bind]; rewrite E; reflexivity. }
  splits; auto.
Qed.
Print Assumptions C160_group_lbc.

(** Printing: the time of the grouped level sets is set by no constructor.  Once it is set the twenty columns are printed in this order. *)
Theorem C160_print : forall (T : Type) (zero : T) n nnz Lp Li E threads tid s, level_stats s zero n nnz Lp Li E threads tid ->
  PrintData s = Err Uninit /\
  forall t, exists cells, PrintData (set_glevel_time t s) = Ok cells /\
    map Some cells = [Some (CInt (sn s)); Some (CInt (snnz s)); Some (CQuo (snnz_rows s)); option_map CInt (sgroup s); option_map CInt (spart s);
      option_map CInt (saccess s); option_map CInt (sreuse s); option_map CInt (sflops s); option_map CInt (slevels s); option_map CInt (ssys s);
      option_map CQuo (sparallel s); option_map CQuo (snnz_levels s); option_map CQuo (savg s); option_map CDev (svar s); option_map CInt (ssum s);
      Some (CInt (score s)); Some (CTime zero); Some (CTime t); Some (CTime zero); Some (CTime zero)].
Proof.
  intros T zero n nnz Lp Li E threads tid s (ng & gp & gs & inv & k & lp & ls & lcost & _ & _ & _ & _ & _ & (M1 & M2 & M3 & M4 & M5 & M6 & M7) & (C1 & C2 & C3 & C4 & C5 & C6 & C7 & C8 & C9) & H1 & H2 & H3 & H4 & H5 & H6 & H7).
  assert (V : exists q, svar s = Some q).
  { destruct k as [|[|k]]; [eauto|eauto|]. destruct C7 as (q & Hq & _); [lia|eauto]. }
  destruct V as (q & Hq). unfold PrintData. split.
  - rewrite H1, H2, M6, M7, M5, H3, C2, C3, C4, C6, Hq, C5, H4, H7. reflexivity.
  - intros t. unfold set_glevel_time. cbn [sn snnz snnz_rows score sflops saccess sreuse sparallel snnz_levels ssum savg svar sgroup spart slevels ssys st_serial st_level st_lbc st_group].
    rewrite H1, H2, M6, M7, M5, H3, C2, C3, C4, C6, Hq, C5, H4, H5, H6. cbn [get bind]. eexists. split; [reflexivity|]. cbn [map option_map]. reflexivity.
Qed.
Print Assumptions C160_print.

(** What the header of the file of results promises, for whatever the members hold: a member that was not set is read, or all twenty are printed in order *)
Theorem C160_print_order : forall (T : Type) (s : @stat T),
  let columns := [Some (CInt (sn s)); Some (CInt (snnz s)); Some (CQuo (snnz_rows s)); option_map CInt (sgroup s); option_map CInt (spart s);
      option_map CInt (saccess s); option_map CInt (sreuse s); option_map CInt (sflops s); option_map CInt (slevels s); option_map CInt (ssys s);
      option_map CQuo (sparallel s); option_map CQuo (snnz_levels s); option_map CQuo (savg s); option_map CDev (svar s); option_map CInt (ssum s);
      Some (CInt (score s)); option_map CTime (st_serial s); option_map CTime (st_group s); option_map CTime (st_lbc s); option_map CTime (st_level s)] in
  (In None columns /\ PrintData s = Err Uninit) \/ exists cells, map Some cells = columns /\ PrintData s = Ok cells.
Proof.
  intros T s. cbv zeta. unfold PrintData.
  destruct (sgroup s); [|left; split; [cbn [In option_map]; tauto|reflexivity]]. destruct (spart s); [|left; split; [cbn [In option_map]; tauto|reflexivity]].
  destruct (saccess s); [|left; split; [cbn [In option_map]; tauto|reflexivity]]. destruct (sreuse s); [|left; split; [cbn [In option_map]; tauto|reflexivity]].
  destruct (sflops s); [|left; split; [cbn [In option_map]; tauto|reflexivity]]. destruct (slevels s); [|left; split; [cbn [In option_map]; tauto|reflexivity]].
  destruct (ssys s); [|left; split; [cbn [In option_map]; tauto|reflexivity]]. destruct (sparallel s); [|left; split; [cbn [In option_map]; tauto|reflexivity]].
  destruct (snnz_levels s); [|left; split; [cbn [In option_map]; tauto|reflexivity]]. destruct (savg s); [|left; split; [cbn [In option_map]; tauto|reflexivity]].
  destruct (svar s); [|left; split; [cbn [In option_map]; tauto|reflexivity]]. destruct (ssum s); [|left; split; [cbn [In option_map]; tauto|reflexivity]].
  destruct (st_serial s); [|left; split; [cbn [In option_map]; tauto|reflexivity]]. destruct (st_group s); [|left; split; [cbn [In option_map]; tauto|reflexivity]].
  destruct (st_lbc s); [|left; split; [cbn [In option_map]; tauto|reflexivity]]. destruct (st_level s); [|left; split; [cbn [In option_map]; tauto|reflexivity]].
  right. eexists. split; [|reflexivity]. reflexivity.
Qed.
Print Assumptions C160_print_order.

(** four groups in two levels *)
Example C160_case :
  let Lp := [0;1;3;4;6;8] in let Li := [0; 0;1; 2; 0;3; 2;4] in
  wf_rows 5 Lp Li /\ rows_lower 5 Lp Li /\
  exists s, StatSpMat_levels 0 2 (fun _ j => j mod 2) 5 8 Lp Li = Ok s /\ sgroup s = Some 4 /\ slevels s = Some 2 /\ ssum s = Some 2 /\
    svar s = Some (8, 4)%Z /\ PrintData s = Err Uninit.
Proof.
  cbv zeta. splits; [apply wf_rowsb_ok; vm_compute; reflexivity|apply rows_lowerb_ok; vm_compute; reflexivity|].
  eexists. splits; vm_compute; reflexivity.
Qed.

(** the same matrix with a schedule of two levels and three parts *)
Example C160_case_lbc :
  let Lp := [0;1;3;4;6;8] in let Li := [0; 0;1; 2; 0;3; 2;4] in let lp := [0;2;3] in let pp := [0;3;4;5] in let np := [0;1;3;2;4] in
  sched_wf 5 2 lp pp np /\ (forall k, k < 5 -> np.[k] < 5) /\
  exists s, StatSpMat_lbc 0 2 (fun _ j => j mod 2) 5 8 Lp Li lp pp np 2 3 2 = Ok s /\ ssum s = Some 6 /\ svar s = Some (8, 4)%Z /\ sparallel s = Some (3, 2) /\
    PrintData (set_glevel_time 7 s) = Err Uninit.
Proof.
  cbv zeta. splits.
  - unfold sched_wf. cbn. splits; try lia; intros l Hl; do 4 (destruct l; [cbn; lia|]); lia.
  - intros k Hk. do 5 (destruct k; [cbn; lia|]). lia.
  - eexists. splits; vm_compute; reflexivity.
Qed.
