(** End-to-end property of the tree-grouping pipelines with all their options (C70). *)
From Coq Require Import ZifyBool ZifyNat.
From Verif Require Import Base Lib Lib2 Lib3 Spec SpecSolve SpecGroup SpecMat SpecETree Check CheckS CheckG
  M_LevelSet M_Sched M_HDAGG M_Group M_Sparse M_Cost M_SpTRSV M_Mat M_ETree M_Pipeline
  L_Sched L_SpTRSV L_SpTRSV2 P_LevelSet P_HDAGG P_SpTRSV P_Mat P_Group P_Sparse P_Cost L_Sparse4 P_Pipeline L_ETree P_ETree.

(** [dp],[ds] orders the dependences [E]: a triangular graph in which every dependence is a path *)
Definition covers (n : nat) (E : nat -> nat -> Prop) (dp ds : list nat) : Prop :=
  tri_input n dp ds /\ forall u v, E u v -> u < n /\ v < n /\ u <> v /\ reaches (edge n dp ds) u v.

Lemma covers_schedule n E dp ds no lp pp np : covers n E dp ds ->
  valid_schedule n (edge n dp ds) no lp pp np -> valid_schedule n E no lp pp np.
Proof.
  intros ((W & _) & HR) (SW & SC & SO). split; [auto|split; [auto|]]. intros u v lu pu ku lv pv kv He Hlu Hlv Hu Hv.
  apply (reach_ordered n E (edge n dp ds) no lp pp np (fun u v => wf_edge_lt n dp ds W u v) HR SW SC
      (fun a b => let '(la, pa, ka) := a in let '(lb, pb, kb) := b in la < lb \/ (la = lb /\ pa = pb /\ ka < kb)))
      with (u := u) (v := v); auto.
  intros ((la & pa) & ka) ((lb & pb) & kb) ((lc & pc) & kc). lia.
Qed.

(** the graph that is grouped orders the dependences of the matrix; the sparsified one
    needs the diagonal entries first *)
Lemma dag_to_group_ok lfactor bins sched n nnz Lp Li Rp Ri {V} (Rx : list V) :
  wf_csc n Lp Li -> lower_tri n Lp Li -> 0 < n -> (lfactor = false -> diag_first n Lp Li /\ 0 < bins) ->
  lower_rows n Rp Ri Rx -> (forall u v, row_dep n Rp Ri u v <-> edge n Lp Li u v) ->
  exists dag, dag_to_group lfactor true bins sched n nnz Lp Li Rp Ri = Ok dag /\ covers n (edge n Lp Li) (fst dag) (snd dag).
Proof.
  intros W HT Hn HL LR HRD. destruct lfactor.
  - clear HL. destruct LR as ((WR & HR1) & RL & _). assert (W' : L_ETree.wf_rows n Rp Ri).
    { destruct WR as (A1 & A2 & A3 & A4 & A5). split; [lia|]. intros k Hk. split; [now apply A3|].
      assert (Rp.[S k] <= Rp.[n]) by (apply (mono_le (aget Rp) n); auto; lia). lia. }
    destruct (C68_buildETree n Rp Ri W') as (par & ptr & set & E & _ & H1 & H2 & H3 & H4 & H5 & _).
    exists (ptr, set). split; [unfold dag_to_group; rewrite E; reflexivity|]. split.
    + unfold tri_input. splits; auto. now apply one_diag_of_first.
    + cbn. intros u v He. destruct (wf_edge_lt n Lp Li W u v He) as (Bu & Bv). pose proof (HT u v He) as Huv. splits; auto; [lia|].
      apply HRD in He. destruct He as (_ & j & Hj & Ej). apply (C68_entries_ordered n Rp Ri ptr.[n] ptr set W' E); auto. exists j. split; [lia|auto].
  - destruct (HL eq_refl) as (DF & HB). destruct (C25_sparsification_clique bins sched n nnz Lp Li W DF HT Hn HB) as (dp & ds & E1 & SP).
    exists (dp, ds). split; [exact E1|]. destruct SP as (S1 & S2 & S3 & S4 & S5 & S6 & S7). split.
    + unfold tri_input. cbn. splits; auto; [now apply one_diag_of_first|]. intros u v He. apply HT; auto.
    + cbn. intros u v He. destruct (wf_edge_lt n Lp Li W u v He). splits; auto; [apply He|]. apply S6. now apply reaches_edge.
Qed.

(** the group graph: what HDAGG is given *)
Definition group_input (n : nat) (dag : list nat * list nat) (ng : nat) (gp gs p s : list nat) : Prop :=
  grouping n ng gp gs /\ 0 < ng /\ wf_csc ng p s /\ one_diag ng p s /\ acyclic (edge ng p s) /\
  forall g h, edge ng p s g h <-> quotient (edge n (fst dag) (snd dag)) ng gp gs g h.

Lemma grouped_dag_ok bfs restr n dag : tri_input n (fst dag) (snd dag) -> 0 < restr ->
  exists ng gp gs p s, grouped_dag bfs restr n dag = Ok (ng, gp, gs, p, s) /\ group_input n dag ng gp gs p s.
Proof.
  destruct dag as (dp & ds). cbn [fst snd]. intros TI HR. pose proof TI as (W & _ & _ & OD & _ & Hn).
  assert (G : exists ng gp gs, (if bfs then treeBasedGroupingBFS else treeBasedGrouping) restr n dp ds = Ok (ng, gp, gs) /\ grouping n ng gp gs /\ acyclic (quotient (edge n dp ds) ng gp gs)).
  { destruct bfs.
    - destruct (C20_tree_grouping_bfs restr n dp ds TI HR) as (ng & gp & gs & E & GR & _). exists ng, gp, gs. splits; auto.
      apply (C21_tree_quotient_acyclic restr n dp ds ng gp gs TI HR). auto.
    - destruct (C20_tree_grouping restr n dp ds TI HR) as (ng & gp & gs & E & GR & _). exists ng, gp, gs. splits; auto.
      apply (C21_tree_quotient_acyclic restr n dp ds ng gp gs TI HR). auto. }
  destruct G as (ng & gp & gs & E2 & GR & AQ).
  destruct (C19_group_dag_exact n dp ds ng gp gs W GR) as (p & s & E3 & (X1 & X2 & X3 & X4 & X5) & X6 & X7).
  exists ng, gp, gs, p, s. split.
  - unfold grouped_dag. cbn [fst snd]. rewrite E2. cbn [bind]. rewrite E3. reflexivity.
  - unfold group_input. cbn [fst snd]. splits; auto.
    + destruct GR as (_ & _ & (P0 & Pm & Pk & _) & _). destruct ng; [lia|lia].
    + intros u k Hc. apply (AQ u k).
      assert (G : forall u v k, chain (edge ng p s) u v k -> chain (quotient (edge n dp ds) ng gp gs) u v k).
      { induction 1; econstructor; eauto. now apply X6. }
      now apply G.
Qed.

Theorem C70_grouped_hdagg_end_to_end :
  forall (V : Type) (DV : Dflt V) fms quo bfs lfactor restr below accept junk bins sched n nnz Lp Li (Lx b : list V) cores bin_pack,
  lower_matrix n Lp Li Lx -> (lfactor = false -> diag_first n Lp Li /\ 0 < bins) -> n <= length b -> 0 < restr -> 1 <= cores -> rounding_ok below ->
  exists Rp Ri Rx dag ng gp gs p s, csc_to_csr_arr n n Lp Li Lx = Ok (Rp, Ri, Rx) /\
    dag_to_group lfactor true bins sched n nnz Lp Li Rp Ri = Ok dag /\ covers n (edge n Lp Li) (fst dag) (snd dag) /\
    grouped_dag bfs restr n dag = Ok (ng, gp, gs, p, s) /\ group_input n dag ng gp gs p s /\
    (~ visits_all ng (edge ng p s) ->
       exists P, grouped_hdagg_prog bfs lfactor restr below accept junk true bins sched n nnz Lp Li Rp Ri cores bin_pack = Ok P /\
         same_as_serial fms quo n Rp Ri Rx b P /\ race_free fms quo Rp Ri Rx b P) /\
    (visits_all ng (edge ng p s) -> grouped_hdagg_prog bfs lfactor restr below accept junk true bins sched n nnz Lp Li Rp Ri cores bin_pack = Err Throw).
Proof.
  intros V DV fms quo bfs lfactor restr below accept junk bins sched n nnz Lp Li Lx b cores bp LM DF Hb HRe HC HR. pose proof LM as (W & D & HT & _ & Hn).
  destruct (csr_of_lower V DV n Lp Li Lx LM) as (Rp & Ri & Rx & E & LR & HRD).
  destruct (wf_rows_lengths n Rp Ri Rx LR) as (WR & HR1).
  destruct (dag_to_group_ok lfactor bins sched n nnz Lp Li Rp Ri Rx W HT Hn DF LR HRD) as (dag & ED & CV).
  destruct (grouped_dag_ok bfs restr n dag (proj1 CV) HRe) as (ng & gp & gs & p & s & ET & TD).
  exists Rp, Ri, Rx, dag, ng, gp, gs, p, s. split; [auto|]. split; [auto|]. split; [auto|]. split; [auto|]. split; [auto|].
  destruct TD as (GR & Hng & WQ & DQ & AQ & QE).
  destruct (C27_node_costs n Lp Li Rp Ri SpTrSv_LL gp gs [0] W WR ltac:(discriminate)) as (c0 & EC0 & LC0 & VC0).
  destruct (C27_group_costs_are_sums n Lp Li Rp Ri SpTrSv_LL ng gp gs [0] (repeat 0 ng) c0 W WR GR) as (c & EC & LC & VC & _); auto; try discriminate.
  { destruct ng; [lia|discriminate]. }
  assert (PC : positive_costs ng c).
  { intros g Hg. rewrite VC by auto. destruct GR as (_ & _ & (P0 & Pm & Pk & Pb & Pi) & GN). specialize (GN g Hg).
    assert (gp.[S g] <= gp.[ng]) by (apply (mono_le (aget gp) ng); auto; lia).
    pose proof (sum_r_ge_one gp.[g] gp.[S g] (fun i => c0.[gs.[i]]) gp.[g] ltac:(lia)) as K. cbv beta in K.
    specialize (Pb gp.[g] ltac:(lia)). rewrite VC0 in K by auto. unfold node_cost in K. specialize (HR1 _ Pb). lia. }
  unfold grouped_hdagg_prog. rewrite ED. cbn [bind]. rewrite ET. cbn [bind]. rewrite EC. cbn [bind]. split.
  - intros HV.
    destruct (C14_HDAGG_parts below accept junk ng p s c cores false bp) as (WM & no & lp & pp & np & EH & _ & PS); auto; try lia.
    { unfold dag_input. splits; auto. tauto. }
    { destruct (Nat.eq_dec cores 1); [right; auto|left; lia]. }
    rewrite EH. cbn [bind].
    assert (PS' : part_schedule ng (quotient (edge n (fst dag) (snd dag)) ng gp gs) no lp pp np).
    { destruct PS as (A1 & A2 & A3). split; [auto|split; [auto|]]. intros u v lu pu ku lv pv kv He. apply A3. now apply QE. }
    pose proof CV as ((WD & _ & _ & _ & DT & _) & _).
    destruct (C24_ungroup_sorted junk (if bfs then Some dag else None) n (fst dag) (snd dag) ng gp gs no lp pp np WD DT GR PS') as (pp' & np' & EU & _ & _ & VS).
    rewrite EU. cbn [bind]. apply (covers_schedule n (edge n Lp Li)) in VS; auto.
    apply (valid_schedule_iff n (row_dep n Rp Ri)) in VS; [|intros u v; apply HRD].
    destruct (C29_lbc_solve_serial V DV fms quo n Rp Ri Rx b no lp pp' np' LR Hb VS) as (P & EP & S1).
    destruct (C30_solve_race_free V DV fms quo n Rp Ri Rx b no lp pp' np' LR Hb VS) as (P' & EP' & S2).
    rewrite EP in EP'. injection EP' as <-. exists P. splits; auto.
  - intros HV. destruct (C17_chain_throws below accept junk ng p s c cores false bp WQ DQ Hng (or_introl HV)) as (-> & _). reflexivity.
Qed.
Print Assumptions C70_grouped_hdagg_end_to_end.

(** 0 -> 2, 1 -> 2, 1 -> 3, 4 alone: the tree is 0 -> 2, 1 -> 2 -> 3, 4 *)
Example C70_case : forall bfs, lower_matrix 5 exTp exTi (repeat 1%Z 8) /\
  (exists ng gp gs p s, grouped_dag bfs 2 5 ([0;2;4;6;7;8], [0;2; 1;2; 2;3; 3; 4]) = Ok (ng, gp, gs, p, s) /\ ~ visits_all ng (edge ng p s)) /\
  dag_to_group true true 0 [] 5 8 exTp exTi [0;1;2;5;7;8] [0; 1; 0;1;2; 1;3; 4] = Ok ([0;2;4;6;7;8], [0;2; 1;2; 2;3; 3; 4]) /\
  (exists P, grouped_hdagg_prog bfs true 2 below_exact (fun _ it => it <=? 2) 0 true 0 [] 5 8 exTp exTi [0;1;2;5;7;8] [0; 1; 0;1;2; 1;3; 4] 2 true = Ok P /\ P <> []).
Proof.
  intros bfs. assert (DF : diag_first 5 exTp exTi) by now apply diag_firstb_ok. splits; auto.
  - unfold lower_matrix. splits; [now apply wf_cscb_ok|now apply one_diag_of_first|now apply lower_trib_ok|vm_compute; lia|lia].
  - destruct (grouped_dag_ok bfs 2 5 ([0;2;4;6;7;8], [0;2; 1;2; 2;3; 3; 4])) as (ng & gp & gs & p & s & E & TD); [now apply tri_inputb_parts|lia|].
    rewrite E. do 5 eexists. split; [reflexivity|].
    destruct bfs; pose proof E as E'; vm_compute in E'; injection E' as <- <- <- <- <-; (eapply not_chain; [lia|apply TD|apply TD|vm_compute; reflexivity|lia]).
  - destruct bfs; eexists; (split; [vm_compute; reflexivity|discriminate]).
Qed.

(** the first column full, the others diagonal: everything after node 0 is independent, but the
    elimination tree is a path and the inspector throws *)
Theorem C70_arrow_throws_refuted :
  ~ (forall bfs below accept junk n nnz Lp Li (Lx : list Z) Rp Ri Rx cores bin_pack,
     lower_matrix n Lp Li Lx -> diag_first n Lp Li -> ~ visits_all n (edge n Lp Li) -> 1 <= cores -> rounding_ok below ->
     csc_to_csr_arr n n Lp Li Lx = Ok (Rp, Ri, Rx) ->
     exists P, grouped_hdagg_prog bfs true 1 below accept junk true 1 [] n nnz Lp Li Rp Ri cores bin_pack = Ok P).
Proof.
  intros H. destruct (H true below_exact (fun _ _ => true) 0 4 7 [0;4;5;6;7] [0;1;2;3; 1; 2; 3] (repeat 1%Z 7)
    [0;1;3;5;7] [0; 0;1; 0;2; 0;3] (repeat 1%Z 7) 2 true) as (P & HP); try lia.
  - unfold lower_matrix. splits; [now apply wf_cscb_ok|apply one_diag_of_first; now apply diag_firstb_ok|now apply lower_trib_ok|vm_compute; lia|lia].
  - now apply diag_firstb_ok.
  - eapply not_chain; [lia|now apply wf_cscb_ok|apply one_diag_of_first; now apply diag_firstb_ok|vm_compute; reflexivity|lia].
  - apply rounding_exact.
  - vm_compute. reflexivity.
  - vm_compute in HP. discriminate.
Qed.
Print Assumptions C70_arrow_throws_refuted.
