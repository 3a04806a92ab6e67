(** Models of the solver classes of example/sptrsv_demo_utils.h that schedule with load-balanced
    coarsening: what build_set computes and the program that fused_code then runs. *)
From Coq Require Import ZArith.
From Verif Require Import Base Lib M_Sched M_SpTRSV M_LBC M_Runs.

(** sptrsv_demo_utils.h 284-291 and 571-578: std::sort of the node list of every part *)
Definition sort_parts (level_no : nat) (level_ptr part_ptr node_ptr : list nat) : res (list nat) :=
  part_no <- rd level_ptr level_no ;;
  for_ 0 part_no (fun i np => a <- rd part_ptr i ;; b <- rd part_ptr (S i) ;; sort_range np a b) node_ptr.

Section LBCPipe.
(** costs are doubles; [of_nat] is the conversion from int *)
Context {T : Type} {DT : Dflt T}.
Variables (zero : T) (of_nat : nat -> T) (add : T -> T -> T) (ltb : T -> T -> bool) (int_max : T) (sortp : list (T * list nat) -> list (T * list nat)).

(** 193-196: the cost of a row is its number of entries (differences of an int array; the truncated
    difference is the real one because the pointers of a matrix do not decrease) *)
Definition row_costs (n : nat) (Rp : list nat) : res (list T) :=
  for_ 0 n (fun i cost => b <- rd Rp (S i) ;; a <- rd Rp i ;; wr cost i (of_nat (b - a))) (repeat zero n).

(** 190-206 SptrsvLBCDAG ([f_sort] false) and 270-312 SptrsvLBC_W_Sorting; fused_code 132-144 and 296-306.
    L by columns [Lp],[Li] and by rows [Rp]. *)
Definition lbc_dag_prog (f_sort : bool) (n : nat) (Lp Li Rp : list nat) (lp cp ic : Z) : res prog :=
  cost <- row_costs n Rp ;;
  '(level_no, (level_ptr, part_ptr, node_ptr)) <- get_coarse_Level_set_DAG_CSC03 zero add ltb int_max sortp n Lp Li lp cp ic cost ;;
  node_ptr' <- (if f_sort then sort_parts level_no level_ptr part_ptr node_ptr else Ok node_ptr) ;;
  lbc_prog level_no level_ptr part_ptr node_ptr'.

(** 547-553: the cost of a group is overwritten in the inner loop, so it is the cost of its last row *)
Definition group_costs (ngroup : nat) (groupPtr groupSet Rp : list nat) : res (list T) :=
  for_ 0 ngroup (fun i cost => a <- rd groupPtr i ;; b <- rd groupPtr (S i) ;;
    for_ a b (fun j cost => k <- rd groupSet j ;; e <- rd Rp (S k) ;; d <- rd Rp k ;; wr cost i (of_nat (e - d))) cost) (repeat zero ngroup).

(** 505-600 SpTrsvCSR_Grouping_H2 *)
Definition grouping_h2_prog (f_sort : bool) (n : nat) (Lp Li : list nat) (lp cp ic : Z) : res prog :=
  '(ngroup, (groupPtr, groupSet, groupInv)) <- inspection_sptrsvcsr_v1 n Lp Li (repeat 0 (n + 1)) (repeat 0 n) (repeat 0 n) ;;
  DAG <- fs_csr_inspector_dep ngroup groupPtr groupSet groupInv Lp Li (repeat [] ngroup) ;;
  '(gv, gedg) <- pack_group_dag n ngroup DAG ;;
  cost <- group_costs ngroup groupPtr groupSet Lp ;;
  '(level_no, (level_ptr, part_ptr, node_ptr)) <- get_coarse_Level_set_DAG_CSC03 zero add ltb int_max sortp ngroup gv gedg lp cp ic cost ;;
  node_ptr' <- (if f_sort then sort_parts level_no level_ptr part_ptr node_ptr else Ok node_ptr) ;;
  group_lbc_prog level_no level_ptr part_ptr node_ptr' groupPtr groupSet.
End LBCPipe.
