(** Model of the profiling functions of example/sptrsv_src/executor.cpp.  Counters and
    costs are natural numbers (no overflow). *)
From Verif Require Import Base Lib.

(** 35-65: fs_csr_stat; returns flops, access_nnz, reuse_nnz *)
Definition fs_csr_stat (n : nat) (Lp Li : list nat) : res (nat * nat * nat) :=
  '(flops, mem) <- for_ 0 n (fun i '(flops, mem) =>
    a <- rd Lp i ;; b <- rd Lp (S i) ;;
    '(flops, mem) <- for_ a (b - 1) (fun _ '(flops, mem) => Ok (flops + 2, mem + 3)) (flops, mem) ;;
    Ok (flops + 1, mem + 2)) (0, 0) ;;
  reuse <- for_ 1 n (fun i reuse =>
    a <- rd Lp i ;; b <- rd Lp (S i) ;;
    for_ a (b - 1) (fun j reuse => c <- rd Li j ;; Ok (if c =? i - 1 then S reuse else reuse)) reuse) 0 ;;
  Ok (flops, mem, reuse).

Section Balance.
(** [omp] = ENABLE_OPENMP; then [threads] is omp_get_max_threads() and [tid l j] the number of the
    thread that executes iteration [j] of the loop of level [l].  Otherwise the array has one
    element (113, 171, 224) and the index is 1 (127, 183, 235). *)
Variables (omp : bool) (threads : nat) (tid : nat -> nat -> nat).
Variables (Lp : list nat).

Definition stat_len : nat := if omp then threads else 1.
Definition stat_tid (l j : nat) : nat := if omp then tid l j else 1.

(** 135, 187, 242: cost[tidx] += Lp[i+1] - Lp[i] *)
Definition add_cost (t i : nat) (cost : list nat) : res (list nat) :=
  a <- rd Lp (S i) ;; b <- rd Lp i ;; c <- rd cost t ;; wr cost t (c + (a - b)).

(** 147-160, 197-209, 252-264: the largest difference; 0 if there are no pairs *)
Definition spread (cost : list nat) : res nat :=
  temp <- for_ 0 stat_len (fun i temp =>
    for_ (S i) stat_len (fun j temp =>
      x <- rd cost i ;; y <- rd cost j ;; Ok (temp ++ [(x - y) + (y - x)])) temp) [] ;;
  if length temp =? 0 then Ok 0 else rd (rev (isort temp)) 0.

(** 165-212: sptrsv_csr_lbc_stat.  The costs are set to zero before the first and after every level. *)
Definition sptrsv_csr_lbc_stat (level_no : nat) (level_ptr par_ptr partition lcost : list nat) : res (list nat) :=
  for_ 0 level_no (fun l lcost =>
    a <- rd level_ptr l ;; b <- rd level_ptr (S l) ;;
    cost <- for_ a b (fun j cost =>
      c <- rd par_ptr j ;; d <- rd par_ptr (S j) ;;
      for_ c d (fun k cost => i <- rd partition k ;; add_cost (stat_tid l j) i cost) cost) (repeat 0 stat_len) ;;
    s <- spread cost ;; wr lcost l s) lcost.

(** 107-163: fs_csr_levelset_stat *)
Definition fs_csr_levelset_stat (groupPtr groupSet : list nat) (levels : nat) (levelPtr levelSet lcost : list nat) : res (list nat) :=
  for_ 0 levels (fun l lcost =>
    a <- rd levelPtr l ;; b <- rd levelPtr (S l) ;;
    cost <- for_ a b (fun li cost =>
      g <- rd levelSet li ;; c <- rd groupPtr g ;; d <- rd groupPtr (S g) ;;
      for_ c d (fun k cost => i <- rd groupSet k ;; add_cost (stat_tid l li) i cost) cost) (repeat 0 stat_len) ;;
    s <- spread cost ;; wr lcost l s) lcost.

(** 216-267: sptrsv_csr_group_lbc_stat *)
Definition sptrsv_csr_group_lbc_stat (level_no : nat) (level_ptr par_ptr partition groupPtr groupSet lcost : list nat) : res (list nat) :=
  for_ 0 level_no (fun l lcost =>
    a <- rd level_ptr l ;; b <- rd level_ptr (S l) ;;
    cost <- for_ a b (fun j cost =>
      c <- rd par_ptr j ;; d <- rd par_ptr (S j) ;;
      for_ c d (fun k cost =>
        p <- rd partition k ;; e <- rd groupPtr p ;; f <- rd groupPtr (S p) ;;
        for_ e f (fun q cost => i <- rd groupSet q ;; add_cost (stat_tid l j) i cost) cost) cost) (repeat 0 stat_len) ;;
    s <- spread cost ;; wr lcost l s) lcost.
End Balance.

Example stat_run :
  fs_csr_stat 4 [0;1;3;5;8] [0;0;1;1;2;0;2;3] = Ok (12, 20, 3) /\
  sptrsv_csr_lbc_stat true 2 (fun _ j => j mod 2) [0;1;3;5;8] 2 [0;2;3] [0;1;2;4] [0;1;2;3] [7;7;7] = Ok [1;5;7] /\
  sptrsv_csr_lbc_stat false 2 (fun _ j => j mod 2) [0;1;3;5;8] 2 [0;2;3] [0;1;2;4] [0;1;2;3] [7;7;7] = Err OOB.
Proof. vm_compute. auto. Qed.
