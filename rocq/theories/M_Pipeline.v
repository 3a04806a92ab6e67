(** Models of the solver pipelines of example/SpTRSV_runtime.h: the schedule a class builds
    (build_set) followed by the program its solver runs (fused_code).  L is given by its
    columns [Lp],[Li] and by its rows [Rp],[Ri]; the copies of the column arrays that the code
    makes for HDAGG are the arrays themselves here. *)
From Verif Require Import Base Lib M_LevelSet M_Sched M_HDAGG M_Group M_Sparse M_Cost M_SpTRSV M_ETree.

(** 74-106, SpTrsv_LL_Wavefront.  nlevels is an int; the solver's loop [l < nlevels] is empty
    when it is -1. *)
Definition wavefront_prog (n : nat) (Lp Li : list nat) : res prog :=
  '(nlevels, (level_ptr, level_set)) <- computingLevelSet_CSC n Lp Li [] [] ;;
  levelset_prog (Z.to_nat nlevels) level_ptr level_set.

(** 268-310, SpTrSv_LL_HDAGG *)
Definition hdagg_prog below accept junk (n : nat) (Lp Li Rp Ri : list nat) (cores : nat) (bin_pack : bool) : res prog :=
  cost <- costComputation n Lp Li Rp Ri SpTrSv_LL [] [] false (repeat 0 n) ;;
  '(_, (level_no, level_ptr, part_ptr, node_ptr)) <- HDAGG below accept junk n Lp Li cost cores false bin_pack ;;
  lbc_prog level_no level_ptr part_ptr node_ptr.

(** what the Tree classes share: sparsify, group, build the group graph (not for L factors,
    so the size restriction of the grouping is n) *)
Definition tree_groups_of omp bins sched (n nnz : nat) (Lp Li : list nat) :=
  '(DAG_ptr, DAG_set) <- partialSparsification omp bins sched n nnz Lp Li [] [] true ;;
  '(ngroups, group_ptr, group_set) <- treeBasedGrouping n n DAG_ptr DAG_set ;;
  '(gp, gs) <- buildGroupDAG n ngroups group_ptr group_set DAG_ptr DAG_set ;;
  Ok (ngroups, group_ptr, group_set, gp, gs).

(** 435-505, SpTrSv_LL_Tree_HDAGG with isLfactor = false *)
Definition tree_hdagg_prog below accept junk omp bins sched (n nnz : nat) (Lp Li Rp Ri : list nat) (cores : nat) (bin_pack : bool) : res prog :=
  '(ngroups, group_ptr, group_set, gp, gs) <- tree_groups_of omp bins sched n nnz Lp Li ;;
  cost <- costComputation ngroups Lp Li Rp Ri SpTrSv_LL group_ptr group_set true (repeat 0 ngroups) ;;
  '(_, (level_no, level_ptr, part_ptr, node_ptr)) <- HDAGG below accept junk ngroups gp gs cost cores false bin_pack ;;
  '(part_ptr', node_ptr') <- ungrouping junk n level_no level_ptr part_ptr node_ptr group_ptr group_set None true false ;;
  lbc_prog level_no level_ptr part_ptr' node_ptr'.

(** 193-234, SpTrSv_LL_Tree_Wavefront_No_unPACK *)
Definition tree_wavefront_prog omp bins sched (n nnz : nat) (Lp Li : list nat) : res prog :=
  '(ngroups, group_ptr, group_set, gp, gs) <- tree_groups_of omp bins sched n nnz Lp Li ;;
  '(nlevels, (level_ptr, level_set)) <- computingLevelSet_CSC ngroups gp gs [] [] ;;
  group_set' <- for_ 0 ngroups (fun g gs => a <- rd group_ptr g ;; b <- rd group_ptr (S g) ;; sort_range gs a b) group_set ;;
  group_levelset_prog (Z.to_nat nlevels) level_ptr level_set group_ptr group_set'.

(** 456-469 and 652-662, the graph the Tree_HDAGG classes group: the elimination tree of L's rows when
    the constructor was told that L is a factor, else the sparsified columns *)
Definition dag_to_group (lfactor : bool) omp bins sched (n nnz : nat) (Lp Li Rp Ri : list nat) : res (list nat * list nat) :=
  if lfactor then '(_, ptr, set) <- buildETree n Rp Ri ;; Ok (ptr, set)
  else partialSparsification omp bins sched n nnz Lp Li [] [] true.

(** 470-476 and 664-676, followed by the group graph; [bfs] chooses treeBasedGroupingBFS.
    [restr] is the size restriction of the grouping, at least 1 (see M_Group). *)
Definition grouped_dag (bfs : bool) (restr n : nat) (dag : list nat * list nat) :=
  '(ngroups, group_ptr, group_set) <- (if bfs then treeBasedGroupingBFS else treeBasedGrouping) restr n (fst dag) (snd dag) ;;
  '(gp, gs) <- buildGroupDAG n ngroups group_ptr group_set (fst dag) (snd dag) ;;
  Ok (ngroups, group_ptr, group_set, gp, gs).

(** 435-505 SpTrSv_LL_Tree_HDAGG and 632-712 SpTrSv_LL_Tree_HDAGG_BFS with any isLfactor *)
Definition grouped_hdagg_prog (bfs lfactor : bool) (restr : nat) below accept junk omp bins sched (n nnz : nat) (Lp Li Rp Ri : list nat) (cores : nat) (bin_pack : bool) : res prog :=
  dag <- dag_to_group lfactor omp bins sched n nnz Lp Li Rp Ri ;;
  '(ngroups, group_ptr, group_set, gp, gs) <- grouped_dag bfs restr n dag ;;
  cost <- costComputation ngroups Lp Li Rp Ri SpTrSv_LL group_ptr group_set true (repeat 0 ngroups) ;;
  '(_, (level_no, level_ptr, part_ptr, node_ptr)) <- HDAGG below accept junk ngroups gp gs cost cores false bin_pack ;;
  '(part_ptr', node_ptr') <- ungrouping junk n level_no level_ptr part_ptr node_ptr group_ptr group_set (if bfs then Some dag else None) true false ;;
  lbc_prog level_no level_ptr part_ptr' node_ptr'.
