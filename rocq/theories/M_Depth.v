(** Model of compute_depth (utils/sparse_inspector.cpp 888-907). *)
From Verif Require Import Base M_Mat M_LevelSet.

(** 888-907.  transpose_general returns a null pointer for a matrix without rows, and
    AT->p is then read through it.  The level arrays come from the allocating variant
    (15-60).  -1 levels: the loop does nothing.  [degrees] is the caller's array. *)
Definition compute_depth {V} `{Dflt V} (A : csc V) (degrees : list nat) : res (list nat) :=
  o <- transpose_general A ;;
  match o with
  | None => Err OOB
  | Some AT =>
      a <- rd (cp A) (cn A) ;; b <- rd (cp AT) (cn AT) ;;
      if negb (a =? b) then Err Throw else
      '(level_num, (level_ptr, level_set)) <- build_levelSet_CSC_alloc (cn A) (cp AT) (ci AT) ;;
      for_ 0 (Z.to_nat level_num) (fun i degrees =>
        lo <- rd level_ptr i ;; hi <- rd level_ptr (S i) ;;
        for_ lo hi (fun j degrees => cn <- rd level_set j ;; wr degrees cn i) degrees) degrees
  end.

Example compute_depth_run :
  compute_depth (mkCSC 4 4 7 false 0%Z [0;2;4;6;7] [0;2;1;3;2;3;3] [1;1;1;1;1;1;1]%nat) [9;9;9;9;5] = Ok [2;1;1;0;5].
Proof. vm_compute. reflexivity. Qed.
