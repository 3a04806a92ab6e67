(** C74, C75: the solver classes that use load-balanced coarsening, end to end. *)
From Verif Require Import Base Lib Lib2 Lib3 Spec SpecSolve SpecGroup SpecMat Check CheckS CheckG M_LevelSet M_Coarsen M_Sched M_SpTRSV M_Mat M_LBC M_Runs M_LBCPipe
  L_Sched L_SpTRSV L_SpTRSV2 L_Ungroup P_LevelSet P_SpTRSV P_Mat P_Pipeline P_Runs P_LBC.
From Coq Require Import ZifyBool ZifyNat.

(** * Sorting the parts of a schedule in place *)

Lemma for_ext_len {A} `{Dflt A} (f g : nat -> list A -> res (list A)) a b s (N : nat) : length s = N ->
  (forall i t, a <= i < b -> length t = N -> f i t = g i t /\ (forall t', g i t = Ok t' -> length t' = N)) -> for_ a b f s = for_ a b g s.
Proof.
  remember (b - a) as m eqn:Em. revert a s Em. induction m as [|m IH]; intros a s Em HL HF.
  - rewrite !for_nil by lia. auto.
  - rewrite !(for_step _ a) by lia. destruct (HF a s ltac:(lia) HL) as (-> & HG). destruct (g a s) as [t|]; cbn [bind]; auto.
    apply IH; auto; [lia|]. intros i t' Hi. apply HF. lia.
Qed.

Lemma sort_parts_valid n E no lp pp np : valid_schedule n E no lp pp np -> (forall u v, E u v -> u < v) -> length np = n ->
  exists np', sort_parts no lp pp np = Ok np' /\ valid_schedule n E no lp pp np' /\ length np' = n /\
    (forall p, p < lp.[no] -> Permutation (slice np' pp.[p] pp.[S p]) (slice np pp.[p] pp.[S p]) /\ sorted_le (slice np' pp.[p] pp.[S p])).
Proof.
  intros VS HE HL. pose proof VS as ((A1 & A2 & A3 & A4 & A5 & A6 & A7 & A8) & SC & SO).
  set (q := firstn (S lp.[no]) pp).
  assert (Lq : length q = S lp.[no]) by (unfold q; rewrite firstn_length; lia).
  assert (Gq : forall i, i <= lp.[no] -> q.[i] = pp.[i]) by (intros i Hi; unfold q; apply aget_firstn; lia).
  assert (PS : part_schedule n E no lp q np).
  { split; [unfold sched_wf; splits; auto; try lia|split; auto].
    - rewrite Gq by lia. auto.
    - intros p Hp. rewrite !Gq by lia. auto.
    - rewrite Gq by lia. auto.
    - assert (HML : forall a b, a <= b -> b <= no -> lp.[a] <= lp.[b]) by (apply (mono_le (aget lp)); auto).
      intros u v lu pu ku lv pv kv He Hu Hv (U1 & U2 & U3) (V1 & V2 & V3). pose proof (HML (S lu) no ltac:(lia) ltac:(lia)). pose proof (HML (S lv) no ltac:(lia) ltac:(lia)).
      rewrite !Gq in * by lia. destruct (SO u v lu pu ku lv pv kv He Hu Hv) as [|(X1 & X2 & _)]; auto; unfold sched_at; splits; auto; lia. }
  assert (HM : forall a b, a <= b -> b <= lp.[no] -> pp.[a] <= pp.[b]) by (apply (mono_le (aget pp)); auto).
  assert (G : wp (sort_ids q np) (fun np' => resorted (fun x => x) q np np')).
  { apply sort_ids_wp; auto; try lia.
    - intros i Hi. rewrite !Gq by lia. apply A6. lia.
    - rewrite Lq. replace (S lp.[no] - 1) with lp.[no] by lia. rewrite Gq by lia. lia. }
  apply wp_ok in G. destruct G as (np' & EG & RS).
  destruct (part_schedule_resorted _ _ _ _ _ _ _ _ PS HL Lq RS) as (_ & VS'). specialize (VS' HE).
  destruct RS as (R1 & R2 & R3 & R4).
  exists np'. splits; try lia.
  - unfold sort_parts. rewrite rd_ok by lia. cbn [bind]. rewrite <- EG. unfold sort_ids. rewrite Lq. replace (S lp.[no] - 1) with lp.[no] by lia.
    apply (for_ext_len _ _ _ _ _ n HL). intros i t Hi Ht. rewrite !rd_ok by lia. cbn [bind]. rewrite !Gq by lia. split; auto.
    pose proof (HM i (S i) ltac:(lia) ltac:(lia)). pose proof (HM (S i) lp.[no] ltac:(lia) ltac:(lia)).
    assert (HW : wp (sort_range t pp.[i] pp.[S i]) (fun s' => length s' = n)) by (apply sort_range_wp; try lia; intros; lia).
    intros t' Et. rewrite Et in HW. exact HW.
  - destruct VS' as ((B1 & B2 & B3 & B4 & B5 & B6 & B7 & B8) & SC' & SO'). split; [unfold sched_wf; splits; auto; lia|split; auto].
    assert (HML : forall a b, a <= b -> b <= no -> lp.[a] <= lp.[b]) by (apply (mono_le (aget lp)); auto).
    intros u v lu pu ku lv pv kv He Hu Hv (U1 & U2 & U3) (V1 & V2 & V3). pose proof (HML (S lu) no ltac:(lia) ltac:(lia)). pose proof (HML (S lv) no ltac:(lia) ltac:(lia)).
    apply (SO' u v lu pu ku lv pv kv He Hu Hv); unfold sched_at; rewrite !Gq by lia; auto.
  - intros p Hp. specialize (R3 p ltac:(lia)). specialize (R4 p ltac:(lia)). rewrite !Gq in R3, R4 by lia. rewrite map_id in R4. auto.
Qed.

(** * Costs *)

Lemma row_costs_ok {T} {DT : Dflt T} (zero : T) of_nat n Rp : n < length Rp ->
  exists cost, row_costs zero of_nat n Rp = Ok cost /\ length cost = n /\ forall i, i < n -> cost.[i] = of_nat (Rp.[S i] - Rp.[i]).
Proof.
  intros HL. assert (G : wp (row_costs zero of_nat n Rp) (fun cost => length cost = n /\ forall i, i < n -> cost.[i] = of_nat (Rp.[S i] - Rp.[i]))).
  { unfold row_costs. apply (wp_for (fun i cost => length cost = n /\ forall j, j < i -> cost.[j] = of_nat (Rp.[S j] - Rp.[j]))); auto; [lia| |].
    - rewrite repeat_length. split; auto. intros; lia.
    - intros i cost Hi (H1 & H2). wp1. wp1; [lia|]. wp1. wp1; [lia|]. wp1; [lia|]. rewrite upd_length. split; auto.
      intros j Hj. destruct (Nat.eq_dec j i) as [->|]; [rewrite aget_upd_eq by lia|rewrite aget_upd_ne by lia; apply H2; lia]. auto. }
  apply wp_ok in G. destruct G as (cost & E & H). eauto.
Qed.

(** the cost of a group is that of its last row *)
Lemma group_costs_ok {T} {DT : Dflt T} (zero : T) of_nat n ng gp gs Rp : ng < length gp -> n <= length gs -> n < length Rp ->
  (forall g, g < ng -> gp.[g] < gp.[S g] <= n) -> (forall k, k < n -> gs.[k] < n) ->
  exists cost, group_costs zero of_nat ng gp gs Rp = Ok cost /\ length cost = ng /\
    forall g, g < ng -> cost.[g] = of_nat (Rp.[S gs.[gp.[S g] - 1]] - Rp.[gs.[gp.[S g] - 1]]).
Proof.
  intros L1 L2 L3 HG HS.
  assert (G : wp (group_costs zero of_nat ng gp gs Rp) (fun cost => length cost = ng /\
    forall g, g < ng -> cost.[g] = of_nat (Rp.[S gs.[gp.[S g] - 1]] - Rp.[gs.[gp.[S g] - 1]]))).
  { unfold group_costs. apply (wp_for (fun i cost => length cost = ng /\ forall g, g < i -> cost.[g] = of_nat (Rp.[S gs.[gp.[S g] - 1]] - Rp.[gs.[gp.[S g] - 1]]))); auto; [lia| |].
    - rewrite repeat_length. split; auto. intros; lia.
    - intros i cost Hi (H1 & H2). wp1. wp1; [lia|]. wp1. wp1; [lia|]. specialize (HG i ltac:(lia)).
      apply (wp_for (fun j cost => length cost = ng /\ (forall g, g < i -> cost.[g] = of_nat (Rp.[S gs.[gp.[S g] - 1]] - Rp.[gs.[gp.[S g] - 1]])) /\
        (gp.[i] < j -> cost.[i] = of_nat (Rp.[S gs.[j - 1]] - Rp.[gs.[j - 1]])))); [lia| | |].
      + splits; auto. intros; lia.
      + intros j c Hj (K1 & K2 & K3). wp1. wp1; [lia|]. pose proof (HS j ltac:(lia)). wp1. wp1; [lia|]. wp1. wp1; [lia|]. wp1; [lia|]. rewrite upd_length. splits; auto.
        * intros g Hg. rewrite aget_upd_ne by lia. auto.
        * intros _. rewrite aget_upd_eq by lia. now replace (S j - 1) with j by lia.
      + intros c (K1 & K2 & K3). split; auto. intros g Hg. destruct (Nat.eq_dec g i) as [->|]; [apply K3; lia|apply K2; lia]. }
  apply wp_ok in G. destruct G as (cost & E & H). eauto.
Qed.

(** * C74: SptrsvLBCDAG and SptrsvLBC_W_Sorting *)

Theorem C74_lbc_dag_end_to_end :
  forall (V : Type) (DV : Dflt V) fms quo (T : Type) (DT : Dflt T) (zero : T) of_nat add ltb int_max sortp f_sort n Lp Li (Lx b : list V) lp cp ic,
  (forall l, Permutation (sortp l) l) -> lower_matrix n Lp Li Lx -> n <= length b -> ~ visits_all n (edge n Lp Li) ->
  lp <> 0%Z -> (1 <= cp)%Z -> (1 <= ic)%Z ->
  exists Rp Ri Rx P, csc_to_csr_arr n n Lp Li Lx = Ok (Rp, Ri, Rx) /\
    lbc_dag_prog zero of_nat add ltb int_max sortp f_sort n Lp Li Rp lp cp ic = Ok P /\
    same_as_serial fms quo n Rp Ri Rx b P /\ race_free fms quo Rp Ri Rx b P.
Proof.
  intros V DV fms quo T DT zero ofn add ltb im sp f_sort n Lp Li Lx b lp cp ic HS LM Hb HV Hlp Hcp Hic.
  pose proof LM as (W & D & LT & HX & Hn). destruct (csr_of_lower V DV n Lp Li Lx LM) as (Rp & Ri & Rx & E1 & LR & ED).
  pose proof LR as ((WR & _) & _). pose proof WR as (LRp & _).
  destruct (row_costs_ok zero ofn n Rp) as (cost & E2 & LC & _); [lia|].
  destruct (C44_lbc_valid T DT zero add ltb im sp n Lp Li lp cp ic cost) as (k & level_ptr & pp & np & E3 & VS & Hk & L1 & L2 & L3 & _); auto; try lia.
  { intros (u & d & Hc). exact (tri_acyclic n Lp Li LT u d Hc). }
  assert (VN : exists np', (if f_sort then sort_parts k level_ptr pp np else Ok np) = Ok np' /\ valid_schedule n (row_dep n Rp Ri) k level_ptr pp np').
  { destruct f_sort.
    - destruct (sort_parts_valid n _ k level_ptr pp np VS) as (np' & E4 & VS' & _); auto. exists np'. split; auto.
      apply (valid_schedule_iff n _ (edge n Lp Li)); auto. intros u v. apply ED.
    - exists np. split; auto. apply (valid_schedule_iff n _ (edge n Lp Li)); auto. intros u v. apply ED. }
  destruct VN as (np' & E4 & VN).
  destruct (C29_lbc_solve_serial V DV fms quo n Rp Ri Rx b k level_ptr pp np') as (P & E5 & S1); auto.
  destruct (C30_solve_race_free V DV fms quo n Rp Ri Rx b k level_ptr pp np') as (P' & E5' & S2); auto.
  rewrite E5 in E5'. injection E5' as <-.
  exists Rp, Ri, Rx, P. splits; auto. unfold lbc_dag_prog. rewrite E2. cbn [bind]. rewrite E3. cbn [bind]. rewrite E4. exact E5.
Qed.
Print Assumptions C74_lbc_dag_end_to_end.

(** a matrix whose rows form one chain is refused *)
Theorem C74_chain_throws :
  forall (V : Type) (DV : Dflt V) (T : Type) (DT : Dflt T) (zero : T) of_nat add ltb int_max sortp f_sort n Lp Li (Lx : list V) Rp lp cp ic,
  lower_matrix n Lp Li Lx -> n < length Rp -> visits_all n (edge n Lp Li) ->
  lbc_dag_prog zero of_nat add ltb int_max sortp f_sort n Lp Li Rp lp cp ic = Err Throw.
Proof.
  intros V DV T DT zero ofn add ltb im sp f_sort n Lp Li Lx Rp lp cp ic (W & D & LT & HX & Hn) HR HV.
  destruct (row_costs_ok zero ofn n Rp) as (cost & E2 & LC & _); [lia|].
  unfold lbc_dag_prog. rewrite E2. cbn [bind]. rewrite C44_chain_throws; auto.
Qed.
Print Assumptions C74_chain_throws.

(** with the parameters [lbc_config] proposes for matrices with fewer than ten entries per row *)
Theorem C74_config_oob :
  forall (V : Type) (DV : Dflt V) (T : Type) (DT : Dflt T) (zero : T) of_nat add ltb int_max sortp f_sort n Lp Li (Lx : list V) Rp threads,
  lower_matrix n Lp Li Lx -> n < length Rp -> ~ visits_all n (edge n Lp Li) -> Lp.[n] < 10 * n ->
  exists lp cp ic bp, lbc_config n Lp.[n] threads = Ok (lp, cp, ic, bp) /\
    lbc_dag_prog zero of_nat add ltb int_max sortp f_sort n Lp Li Rp (Z.of_nat lp) (Z.of_nat cp) (Z.of_nat ic) = Err OOB.
Proof.
  intros V DV T DT zero ofn add ltb im sp f_sort n Lp Li Lx Rp th (W & D & LT & HX & Hn) HR HV Hlt.
  destruct (row_costs_ok zero ofn n Rp) as (cost & E2 & LC & _); [lia|].
  destruct (C44_config_oob T DT zero add ltb im sp n Lp Li th cost) as (lp & cp & ic & bp & E1 & E3); auto.
  { intros (u & d & Hc). exact (tri_acyclic n Lp Li LT u d Hc). }
  exists lp, cp, ic, bp. split; auto. unfold lbc_dag_prog. rewrite E2. cbn [bind]. now rewrite E3.
Qed.
Print Assumptions C74_config_oob.

Example C74_case : lower_matrix 9 chains3_p chains3_i (repeat 1%Z 15) /\ ~ visits_all 9 (edge 9 chains3_p chains3_i) /\
  (forall f_sort, exists P, lbc_dag_prog 0%Z Z.of_nat Z.add Z.ltb INT_MAX sort_desc f_sort 9 chains3_p chains3_i [0;1;2;3;5;7;9;11;13;15] 2 1 1 = Ok P) /\
  lbc_dag_prog 0%Z Z.of_nat Z.add Z.ltb INT_MAX sort_desc false 9 chains3_p chains3_i [0;1;2;3;5;7;9;11;13;15] 2 1 1 <>
  lbc_dag_prog 0%Z Z.of_nat Z.add Z.ltb INT_MAX sort_desc true 9 chains3_p chains3_i [0;1;2;3;5;7;9;11;13;15] 2 1 5.
Proof.
  destruct C44_hyps as (W & D & C1 & C2). splits; auto.
  - split; [auto|split; [auto|split; [now apply lower_trib_ok|split; [vm_compute; lia|lia]]]].
  - intros [|]; eexists; vm_compute; reflexivity.
  - vm_compute. discriminate.
Qed.

(** * C75: SpTrsvCSR_Grouping_H2 *)

(** the groups the class makes, and the graph between them *)
Definition run_groups (n : nat) (Lp Li : list nat) (ng : nat) (gp gs : list nat) : Prop := exists inv,
  inspection_sptrsvcsr_v1 n Lp Li (repeat 0 (n + 1)) (repeat 0 n) (repeat 0 n) = Ok (ng, (gp, gs, inv)).

Lemma h2_stages {T} {DT : Dflt T} (zero : T) of_nat n Lp Li {V} {DV : Dflt V} (Lx : list V) : lower_rows n Lp Li Lx ->
  exists ng gp gs inv D gv gedg cost,
    inspection_sptrsvcsr_v1 n Lp Li (repeat 0 (n + 1)) (repeat 0 n) (repeat 0 n) = Ok (ng, (gp, gs, inv)) /\
    fs_csr_inspector_dep ng gp gs inv Lp Li (repeat [] ng) = Ok D /\ pack_group_dag n ng D = Ok (gv, gedg) /\
    group_costs zero of_nat ng gp gs Lp = Ok cost /\ ng <= length cost /\ (0 < n -> 0 < ng) /\
    group_partition n ng gp gs /\ group_ordered (row_dep n Lp Li) ng gp gs /\ ng < length gp /\ n <= length gs /\
    wf_csc ng gv gedg /\ diag_first ng gv gedg /\ (forall g h, edge ng gv gedg g h <-> quotient (row_dep n Lp Li) ng gp gs g h) /\
    (forall g h, quotient (row_dep n Lp Li) ng gp gs g h -> g < h) /\
    (forall g, g < ng -> cost.[g] = of_nat (Lp.[gp.[S g]] - Lp.[gp.[S g] - 1])).
Proof.
  intros ((W & HNE) & RL & HX).
  destruct (C39_csr_runs n Lp Li (repeat 0 (n + 1)) (repeat 0 n) (repeat 0 n) W) as (ng & gp & gs & inv & E1 & L1 & L2 & L3 & Hng & R); try (rewrite repeat_length; lia).
  rewrite !repeat_length in *. destruct (C39_runs_partition _ _ _ _ _ _ R) as (GP & HI & HO). destruct (HO (row_dep n Lp Li) RL) as (GO & GQ).
  destruct (C71_group_graph n ng gp gs inv Lp Li W GP) as (D & gv & gedg & E2 & E3 & WG & DG & EG & _); auto; try lia.
  pose proof R as (A1 & A2 & A3 & A4 & A5 & A6). pose proof W as (LLp & _).
  assert (HB : forall g, g < ng -> gp.[g] < gp.[S g] <= n).
  { intros g Hg. split; [apply A2; auto|]. rewrite <- A3. apply (mono_le (aget gp) ng); [intros i Hi; specialize (A2 i Hi)|..]; lia. }
  destruct (group_costs_ok zero of_nat n ng gp gs Lp) as (cost & E4 & LC & HC); try lia.
  { auto. } { intros k Hk. rewrite A4; lia. }
  exists ng, gp, gs, inv, D, gv, gedg, cost. splits; auto; try lia.
  - intros Hn. destruct ng; [lia|lia].
  - intros g Hg. rewrite HC by auto. destruct (HB g Hg). rewrite !A4 by lia. now replace (S (gp.[S g] - 1)) with gp.[S g] by lia.
Qed.

Theorem C75_grouping_lbc_end_to_end :
  forall (V : Type) (DV : Dflt V) fms quo (T : Type) (DT : Dflt T) (zero : T) of_nat add ltb int_max sortp f_sort n Lp Li (Lx b : list V) lp cp ic,
  (forall l, Permutation (sortp l) l) -> lower_rows n Lp Li Lx -> n <= length b -> 0 < n ->
  lp <> 0%Z -> (1 <= cp)%Z -> (1 <= ic)%Z ->
  exists ng gp gs, run_groups n Lp Li ng gp gs /\
    (~ visits_all ng (quotient (row_dep n Lp Li) ng gp gs) ->
       exists P, grouping_h2_prog zero of_nat add ltb int_max sortp f_sort n Lp Li lp cp ic = Ok P /\
         same_as_serial fms quo n Lp Li Lx b P /\ race_free fms quo Lp Li Lx b P) /\
    (visits_all ng (quotient (row_dep n Lp Li) ng gp gs) ->
       grouping_h2_prog zero of_nat add ltb int_max sortp f_sort n Lp Li lp cp ic = Err Throw).
Proof.
  intros V DV fms quo T DT zero ofn add ltb im sp f_sort n Lp Li Lx b lp cp ic HS LR Hb Hn Hlp Hcp Hic.
  destruct (h2_stages zero ofn n Lp Li Lx LR) as (ng & gp & gs & inv & D & gv & gedg & cost & E1 & E2 & E3 & E4 & LC & Hng & GP & GO & L1 & L2 & WG & DG & EG & GQ & _).
  specialize (Hng Hn). exists ng, gp, gs. split; [exists inv; auto|].
  assert (VI : visits_all ng (edge ng gv gedg) <-> visits_all ng (quotient (row_dep n Lp Li) ng gp gs)).
  { assert (CM : forall (E E' : nat -> nat -> Prop), (forall g h, E g h -> E' g h) -> visits_all ng E -> visits_all ng E').
    { intros E E' HE (path & Hp & Hc). exists path. auto. }
    split; apply CM; intros g h; apply EG. }
  assert (EP : forall P, (pp <- get_coarse_Level_set_DAG_CSC03 zero add ltb im sp ng gv gedg lp cp ic cost ;;
     let '(level_no, (level_ptr, part_ptr, node_ptr)) := pp in
     node_ptr' <- (if f_sort then sort_parts level_no level_ptr part_ptr node_ptr else Ok node_ptr) ;;
     group_lbc_prog level_no level_ptr part_ptr node_ptr' gp gs) = P -> grouping_h2_prog zero ofn add ltb im sp f_sort n Lp Li lp cp ic = P).
  { intros P <-. unfold grouping_h2_prog. rewrite E1. cbn [bind]. rewrite E2. cbn [bind]. rewrite E3. cbn [bind]. rewrite E4. reflexivity. }
  split; intros HV.
  - destruct (C44_lbc_valid T DT zero add ltb im sp ng gv gedg lp cp ic cost) as (k & level_ptr & pp & np & E5 & VS & Hk & _ & _ & L5 & _); auto; try lia.
    { now apply one_diag_of_first. }
    { intros (u & d & Hc). revert Hc. apply tri_acyclic. intros g h He. apply GQ, EG, He. }
    { intros X. apply HV, VI, X. }
    assert (VN : exists np', (if f_sort then sort_parts k level_ptr pp np else Ok np) = Ok np' /\ valid_schedule ng (quotient (row_dep n Lp Li) ng gp gs) k level_ptr pp np').
    { apply (valid_schedule_iff ng (quotient (row_dep n Lp Li) ng gp gs)) in VS; [|intros g h; apply EG]. destruct f_sort.
      - destruct (sort_parts_valid ng _ k level_ptr pp np VS) as (np' & E6 & VS' & _); auto. exists np'. auto.
      - exists np. auto. }
    destruct VN as (np' & E6 & VN).
    destruct (C31_group_lbc_solve_serial V DV fms quo n ng Lp Li Lx b k level_ptr pp np' gp gs) as (P & E7 & S1 & S2); auto.
    exists P. splits; auto. apply EP. rewrite E5. cbn [bind]. rewrite E6. exact E7.
  - apply EP. rewrite C44_chain_throws; auto; [now apply one_diag_of_first|]. right. now apply VI.
Qed.
Print Assumptions C75_grouping_lbc_end_to_end.

(** The class means to give a group the number of entries of its rows as its cost. *)
Definition group_entries (Lp gp : list nat) (g : nat) : nat := Lp.[gp.[S g]] - Lp.[gp.[g]].

Theorem C75_group_cost : forall (V : Type) (DV : Dflt V) n Lp Li (Lx : list V), lower_rows n Lp Li Lx ->
  exists ng gp gs cost, run_groups n Lp Li ng gp gs /\ group_costs 0%Z Z.of_nat ng gp gs Lp = Ok cost /\
    forall g, g < ng -> cost.[g] = Z.of_nat (Lp.[gp.[S g]] - Lp.[gp.[S g] - 1]).
Proof.
  intros V DV n Lp Li Lx LR.
  destruct (h2_stages 0%Z Z.of_nat n Lp Li Lx LR) as (ng & gp & gs & inv & D & gv & gedg & cost & E1 & E2 & E3 & E4 & LC & Hng & GP & GO & L1 & L2 & WG & DG & EG & GQ & HC).
  exists ng, gp, gs, cost. splits; auto. exists inv. auto.
Qed.
Print Assumptions C75_group_cost.

Theorem C75_group_cost_refuted : ~ (forall (V : Type) (DV : Dflt V) n Lp Li (Lx : list V) ng gp gs cost, lower_rows n Lp Li Lx ->
  run_groups n Lp Li ng gp gs -> group_costs 0%Z Z.of_nat ng gp gs Lp = Ok cost ->
  forall g, g < ng -> cost.[g] = Z.of_nat (group_entries Lp gp g)).
Proof.
  intros H. specialize (H nat _ 5 exRp exRi exRi 2 [0;2;5;0;0;0] [0;1;2;3;4] [2;2]%Z). 
  assert (X : ([2;2]%Z : list Z).[1] = Z.of_nat (group_entries exRp [0;2;5;0;0;0] 1)).
  { apply H; [|exists [0;0;1;1;1]; vm_compute; reflexivity|vm_compute; reflexivity|lia].
    split; [apply wf_rowsb_ok; vm_compute; reflexivity|split; [apply rows_lowerb_ok; vm_compute; reflexivity|vm_compute; lia]]. }
  vm_compute in X. discriminate.
Qed.
Print Assumptions C75_group_cost_refuted.

(** three chains of three rows, and a single chain, refused because it is one group *)
Example C75_case : lower_rows 9 [0;1;2;3;5;7;9;11;13;15] [0;1;2;0;3;1;4;2;5;3;6;4;7;5;8] (repeat 1%Z 15) /\
  (exists P, grouping_h2_prog 0%Z Z.of_nat Z.add Z.ltb INT_MAX sort_desc true 9 [0;1;2;3;5;7;9;11;13;15] [0;1;2;0;3;1;4;2;5;3;6;4;7;5;8] 2 1 1 = Ok P) /\
  grouping_h2_prog 0%Z Z.of_nat Z.add Z.ltb INT_MAX sort_desc true 3 [0;1;3;5] [0; 0;1; 1;2] 2 1 1 = Err Throw.
Proof.
  splits; [|eexists; vm_compute; reflexivity|vm_compute; reflexivity].
  split; [apply wf_rowsb_ok; vm_compute; reflexivity|split; [apply rows_lowerb_ok; vm_compute; reflexivity|vm_compute; lia]].
Qed.
