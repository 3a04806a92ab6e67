(** Models of the classes of example/old/spic0_demo_utils.h that factorise by columns in parallel: what
    build_set computes from L and the operations that fused_code then runs on the factor.  [Lp],[Li] are the
    columns of L1_csc_, from which the schedule is made; [Fp],[Fi] those of factor_, which is made from A
    (77-85: csr_to_csc and copy_from_to, C33 and M_Mat).  Timers are dropped. *)
From Coq Require Import ZArith.
From Verif Require Import Base Lib M_LevelSet M_SpTRSV M_Runs M_Greedy M_LBC M_LBCPipe M_IC0.

(** 124-148 SpicoCSCLevelSet.  A level number of -1 makes the level loop of the kernel empty. *)
Definition ic_levelset_class (n : nat) (Lp Li Fp Fi : list nat) : res iprog :=
  '(level_no, (level_ptr, level_set)) <- build_levelSet_CSC_alloc n Lp Li ;;
  ic_levelset Fp Fi (Z.to_nat level_no) level_ptr level_set.

(** 176-240 SpicoCSC_Grouping *)
Definition ic_grouping_class (n : nat) (Lp Li Fp Fi : list nat) : res iprog :=
  '(ngroup, (groupPtr, groupSet, groupInv)) <- inspection_spicocsc_v1 n Lp Li (repeat 0 (n + 1)) (repeat 0 n) (repeat 0 n) ;;
  DAG <- fs_ic0csc_inspector_group ngroup groupPtr groupSet groupInv Lp Li (repeat [] ngroup) ;;
  '(gv, gedg) <- pack_group_dag n ngroup DAG ;;
  '(nlevels, (levelPtr, levelSet)) <- buildLevelSet_CSC_Queue ngroup gv gedg (repeat 0 (n + 1)) (repeat 0 n) ;;
  ic_group_levelset Fp Fi nlevels levelPtr levelSet groupPtr groupSet.

Section ICPipe.
(** costs are doubles; [of_nat] is the conversion from int *)
Context {T : Type} {DT : Dflt T}.
Variables (zero : T) (of_nat : nat -> T) (add : T -> T -> T) (ltb : T -> T -> bool) (int_max : T) (sortp : list (T * list nat) -> list (T * list nat)).

(** 473-522 Spic0CSCParallelLBC: the cost of a column is its number of entries (484-488, the loop of
    [row_costs] on the columns) *)
Definition ic_lbc_class (f_sort : bool) (n : nat) (Lp Li Fp Fi : list nat) (lp cp ic : Z) : res iprog :=
  cost <- row_costs zero of_nat n Lp ;;
  '(level_no, (level_ptr, part_ptr, node_ptr)) <- get_coarse_Level_set_DAG_CSC03 zero add ltb int_max sortp n Lp Li lp cp ic cost ;;
  node_ptr' <- (if f_sort then sort_parts level_no level_ptr part_ptr node_ptr else Ok node_ptr) ;;
  ic_lbc Fp Fi level_no level_ptr part_ptr node_ptr'.

(** 335-342: the cost of a group is the number of entries of its columns *)
Definition ic_group_costs (ngroup : nat) (groupPtr groupSet Lp : list nat) : res (list T) :=
  for_ 0 ngroup (fun i cost => a <- rd groupPtr i ;; b <- rd groupPtr (S i) ;;
    for_ a b (fun j cost => k <- rd groupSet j ;; e <- rd Lp (S k) ;; d <- rd Lp k ;; c <- rd cost i ;; wr cost i (add c (of_nat (e - d)))) cost) (repeat zero ngroup).

(** 281-378 SpicoCSC_Grouping_H2 *)
Definition ic_grouping_h2_class (f_sort : bool) (n : nat) (Lp Li Fp Fi : list nat) (lp cp ic : Z) : res iprog :=
  '(ngroup, (groupPtr, groupSet, groupInv)) <- inspection_spicocsc_v1 n Lp Li (repeat 0 (n + 1)) (repeat 0 n) (repeat 0 n) ;;
  DAG <- fs_ic0csc_inspector_group ngroup groupPtr groupSet groupInv Lp Li (repeat [] ngroup) ;;
  '(gv, gedg) <- pack_group_dag n ngroup DAG ;;
  cost <- ic_group_costs ngroup groupPtr groupSet Lp ;;
  '(level_no, (level_ptr, part_ptr, node_ptr)) <- get_coarse_Level_set_DAG_CSC03 zero add ltb int_max sortp ngroup gv gedg lp cp ic cost ;;
  node_ptr' <- (if f_sort then sort_parts level_no level_ptr part_ptr node_ptr else Ok node_ptr) ;;
  ic_group_lbc Fp Fi level_no level_ptr part_ptr node_ptr' groupPtr groupSet.
End ICPipe.
