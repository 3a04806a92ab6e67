(** The solver class SptrsvLBC of example/sptrsv_demo_utils.h (114-160): tree-based coarsening of the
    elimination tree, then sptrsv_csr_lbc. *)
From Coq Require Import ZArith.
From Verif Require Import Base Lib M_Sched M_SpTRSV M_LBC M_Runs M_LBCPipe M_LBCTree M_Sym.

Section CscTree.
Context {T : Type} {DT : Dflt T}.
Variables (zero : T) (of_nat : nat -> T) (add : T -> T -> T) (ltb : T -> T -> bool) (int_max : T) (sortp : list (T * list nat) -> list (T * list nat)).

(** build_set 119-132 and fused_code 134-145; [stray] and [cap] as in get_coarse_levelSet_tree *)
Definition lbc_tree_prog (stray : option nat) (cap n : nat) (Lp Li : list nat) (stype : Z) (Rp : list nat) (lp cp ic : Z) : res prog :=
  cost <- row_costs zero of_nat n Rp ;;
  '(level_no, (level_ptr, part_ptr, node_ptr)) <-
     get_coarse_levelSet_DAG_CSC_tree zero add ltb int_max sortp stray cap n Lp Li stype lp cp ic cost ;;
  lbc_prog level_no level_ptr part_ptr node_ptr.
End CscTree.
