(** Model of evaluate followed by computeStatistic for the class SpTrSv_LL_Tree_HDAGG (example/SpTRSV_runtime.h). *)
From Verif Require Import Base Lib M_LevelSet M_Sched M_HDAGG M_Group M_Sparse M_Cost M_SpTRSV M_ETree M_Pipeline M_Runtime.

(** SpTRSV_runtime.h 452-493 build_set with isLfactor = false, as in [tree_hdagg_prog]: the cost vector (472-479) has one element per
    group and stays as it is when the schedule is ungrouped (488-490); then 543-593 computeStatistic *)
Definition tree_hdagg_statistic below accept junk omp bins sched (n nnz : nat) (Lp Li Rp Ri : list nat) (cores : nat) (bin_pack : bool) : res (nat * Z * nat) :=
  '(ngroups, group_ptr, group_set, gp, gs) <- tree_groups_of omp bins sched n nnz Lp Li ;;
  cost <- costComputation ngroups Lp Li Rp Ri SpTrSv_LL group_ptr group_set true (repeat 0 ngroups) ;;
  '(_, (level_no, level_ptr, part_ptr, node_ptr)) <- HDAGG below accept junk ngroups gp gs cost cores false bin_pack ;;
  '(part_ptr', node_ptr') <- ungrouping junk n level_no level_ptr part_ptr node_ptr group_ptr group_set None true false ;;
  computeStatistic n level_no cost level_ptr part_ptr' node_ptr'.
