(** Property C132 for the class SpTrSv_LL_Tree_HDAGG. *)
From Coq Require Import ZifyBool ZifyNat.
From Verif Require Import Base Lib Lib2 Lib3 Spec SpecSolve SpecGroup SpecMat Check CheckS CheckG
  M_LevelSet M_Sched M_HDAGG M_Group M_Sparse M_Cost M_SpTRSV M_Mat M_Pipeline
  L_Sched L_SpTRSV L_SpTRSV2 P_LevelSet P_HDAGG P_SpTRSV P_Mat P_Group P_Sparse P_Cost L_Sparse4.
From Verif Require Import P_Pipeline M_Runtime M_RuntimeTree P_Runtime P_Runtime2.

(** Whenever the grouping put two nodes together, computeStatistic reads behind the vector of the group costs. *)
Theorem C132_tree_hdagg : forall (V : Type) (DV : Dflt V) below accept junk bins sched n nnz Lp Li (Lx : list V) cores bin_pack Rp Ri Rx ng gp gs p s,
  lower_matrix n Lp Li Lx -> diag_first n Lp Li -> 1 <= cores -> 0 < bins -> rounding_ok below ->
  csc_to_csr_arr n n Lp Li Lx = Ok (Rp, Ri, Rx) -> tree_groups_of true bins sched n nnz Lp Li = Ok (ng, gp, gs, p, s) ->
  ~ visits_all ng (edge ng p s) -> ng < n -> tree_hdagg_statistic below accept junk true bins sched n nnz Lp Li Rp Ri cores bin_pack = Err OOB.
Proof.
  intros V DV below accept junk bins sched n nnz Lp Li Lx cores bp Rp Ri Rx ng gp gs p s LM DF HC HB HR E ET HV HN. pose proof LM as (W & D & HT & _ & Hn).
  destruct (csr_of_lower V DV n Lp Li Lx LM) as (Rp' & Ri' & Rx' & E' & LR & HRD). rewrite E in E'. injection E' as <- <- <-.
  destruct (wf_rows_lengths n Rp Ri Rx LR) as (WR & HR1).
  destruct (tree_groups_of_ok bins sched n nnz Lp Li W DF HT Hn HB) as (ng' & gp' & gs' & p' & s' & ET' & TD). rewrite ET in ET'. injection ET' as <- <- <- <- <-.
  destruct TD as (GR & Hng & WQ & DQ & AQ & dp & ds & SP & DT & QE).
  destruct (C27_node_costs n Lp Li Rp Ri SpTrSv_LL gp gs [0] W WR ltac:(discriminate)) as (c0 & EC0 & LC0 & VC0).
  destruct (C27_group_costs_are_sums n Lp Li Rp Ri SpTrSv_LL ng gp gs [0] (repeat 0 ng) c0 W WR GR) as (c & EC & LC & VC & _); auto; try discriminate.
  { destruct ng; [lia|discriminate]. }
  assert (PC : positive_costs ng c).
  { intros g Hg. rewrite VC by auto. destruct GR as (_ & _ & (P0 & Pm & Pk & Pb & Pi) & GN). specialize (GN g Hg).
    assert (gp.[S g] <= gp.[ng]) by (apply (mono_le (aget gp) ng); auto; lia).
    pose proof (sum_r_ge_one gp.[g] gp.[S g] (fun i => c0.[gs.[i]]) gp.[g] ltac:(lia)) as K. cbv beta in K.
    specialize (Pb gp.[g] ltac:(lia)). rewrite VC0 in K by auto. unfold node_cost in K. specialize (HR1 _ Pb). lia. }
  unfold tree_hdagg_statistic. rewrite ET. cbn [bind]. rewrite EC. cbn [bind].
  destruct (C14_HDAGG_parts below accept junk ng p s c cores false bp) as (WM & no & lp & pp & np & EH & _ & PS); auto; try lia.
  { unfold dag_input. splits; auto. tauto. }
  { destruct (Nat.eq_dec cores 1); [right; auto|left; lia]. }
  rewrite EH. cbn [bind].
  assert (PS' : part_schedule ng (quotient (edge n dp ds) ng gp gs) no lp pp np).
  { destruct PS as (A1 & A2 & A3). split; [auto|split; [auto|]]. intros u v lu pu ku lv pv kv He. apply A3. now apply QE. }
  destruct (C24_ungroup_sorted junk None n dp ds ng gp gs no lp pp np) as (pp' & np' & EU & _ & _ & VS); auto; [apply SP|].
  rewrite EU. cbn [bind]. destruct VS as (S1 & S2 & _). apply C132_out_of_bounds; auto. lia.
Qed.
Print Assumptions C132_tree_hdagg.

Example C132_tree_case : lower_matrix 5 exTp exTi (repeat 1%Z 8) /\ diag_first 5 exTp exTi /\
  (exists gp gs p s, tree_groups_of true 2 [1;0] 5 8 exTp exTi = Ok (4, gp, gs, p, s) /\ ~ visits_all 4 (edge 4 p s)) /\
  tree_hdagg_statistic below_exact (fun _ it => it <=? 2) 0 true 2 [1;0] 5 8 exTp exTi [0;1;2;5;7;8] [0; 1; 0;1;2; 1;3; 4] 2 true = Err OOB.
Proof. splits; try apply C63_case. vm_compute. reflexivity. Qed.
