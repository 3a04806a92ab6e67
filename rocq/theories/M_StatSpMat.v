(** Model of the class StatSpMat, profiler/old/StatSpMat.cpp and
    profiler/old/includes/StatSpMat.h (statistics of a
    triangular matrix and a schedule for it).

    Simplifications: counters are natural numbers without overflow; a quotient of counters is kept
    as (numerator, denominator) and the standard deviation as the (numerator, denominator) under the
    root, so a division by zero is visible as denominator 0; times are elements of any type; the
    kernel type (a stored field) is left out.  Setup calls omp_get_max_threads without a guard, so
    the file compiles only with OpenMP and the models of the counting functions are used with
    [omp = true]; [threads] is the number given to omp_set_num_threads.  [None] is a member that no
    constructor has set. *)
From Verif Require Import Base Lib M_LevelSet M_Runs M_Conv M_Stat.

(** src/group_utils.cpp 48-59 (and src/Group/Group_Utils.cpp 54-67): fs_csr_inspector_dep on rows *)
Definition fs_csr_inspector_rows (n : nat) (Lp Li : list nat) (DAG : list (list nat)) : res (list (list nat)) :=
  for_ 0 n (fun i DAG =>
    a <- rd Lp i ;; b <- rd Lp (S i) ;;
    for_ a (b - 1) (fun k DAG =>
      sid <- rd Li k ;;
      if sid =? i then Ok DAG else l <- rd DAG sid ;; wr DAG sid (l ++ [i])) DAG) DAG.

Section Times.
Context {T : Type}.

(** StatSpMat.h 30-53 *)
Record stat := mkStat {
  sn : nat; snnz : nat; snnz_rows : nat * nat; sgroup : option nat; spart : option nat;
  saccess : option nat; sreuse : option nat; sflops : option nat; slevels : option nat; ssys : option nat;
  sparallel : option (nat * nat); snnz_levels : option (nat * nat);
  savg : option (nat * nat); svar : option (Z * Z); ssum : option nat; score : nat;
  st_serial : option T; st_group : option T; st_lbc : option T; st_level : option T }.

(** StatSpMat.cpp 292-301: Setup; t_group_level is not set *)
Definition Setup (zero : T) (n nnz threads : nat) : stat :=
  mkStat n nnz (nnz, n) None None None None None None None None None None None None threads (Some zero) None (Some zero) (Some zero).

(** 89-100, 180-191, 225-237, 274-286: sum, mean and deviation of the costs of the levels.
    With the mean S/k the sum of squares is (sum of (k c - S)^2) / k^2; size()-1 is unsigned. *)
Definition sum_costs (lcost : list nat) : nat := fold_left Nat.add lcost 0.
Definition deviation (lcost : list nat) : Z * Z :=
  let k := Z.of_nat (length lcost) in
  let S := Z.of_nat (sum_costs lcost) in
  let accum := fold_left (fun acc c => (acc + (k * Z.of_nat c - S) * (k * Z.of_nat c - S))%Z) lcost 0%Z in
  if length lcost =? 0 then (accum, (2 ^ 64 - 1)%Z) else (accum, (k * k * (k - 1))%Z).

(** the part all constructors share *)
Definition finish (s : stat) (ngroup : nat) (npart : option nat) (counts : nat * nat * nat) (nlevels num_sys over parts : nat) (lcost : list nat) : stat :=
  let '(flops, access, reuse) := counts in
  mkStat (sn s) (snnz s) (snnz_rows s) (Some ngroup) npart (Some access) (Some reuse) (Some flops) (Some nlevels) (Some num_sys)
    (Some (parts, over)) (Some (snnz s, over))
    (Some (sum_costs lcost, length lcost)) (Some (deviation lcost)) (Some (sum_costs lcost)) (score s)
    (st_serial s) (st_group s) (st_lbc s) (st_level s).

Variables (zero : T) (threads : nat) (tid : nat -> nat -> nat).

(** 51-73, 144-164: the group graph as arrays, each group first in its own column *)
Definition pack_gDAG (n ngroup : nat) (gDAG : list (list nat)) : res (list nat * list nat) :=
  let count := list_sum (map (@length nat) gDAG) in
  '(gv, gedg, edges) <- for_ 0 ngroup (fun cti '(gv, gedg, edges) =>
     gv <- wr gv cti edges ;;
     gedg <- wr gedg edges cti ;;
     l <- rd gDAG cti ;;
     '(gedg, edges) <- foreach l (fun x '(gedg, edges) => gedg <- wr gedg edges x ;; Ok (gedg, S edges)) (gedg, S edges) ;;
     Ok (gv, gedg, edges)) (repeat 0 (n + 1), repeat 0 (count + n), 0) ;;
  gv <- wr gv ngroup edges ;;
  Ok (gv, gedg).

(** 113-193: the constructor for level sets of a given graph; blksize is not used *)
Definition StatSpMat_DAG (n nnz : nat) (Lp Li : list nat) (DAG : list (list nat)) : res stat :=
  counts <- fs_csr_stat n Lp Li ;;
  '(ngroup, (groupPtr, groupSet, groupInv)) <- inspection_sptrsvcsr_v1 n Lp Li (repeat 0 (n + 1)) (repeat 0 n) (repeat 0 n) ;;
  gDAG <- Group_DAG DAG groupPtr groupSet groupInv ngroup ;;
  '(gv, gedg) <- pack_gDAG n ngroup gDAG ;;
  '(nlevels, (levelPtr, levelSet)) <- buildLevelSet_CSC_Queue ngroup gv gedg (repeat 0 (n + 1)) (repeat 0 n) ;;
  lcost <- fs_csr_levelset_stat true threads tid Lp groupPtr groupSet nlevels levelPtr levelSet (repeat 0 nlevels) ;;
  Ok (finish (Setup zero n nnz threads) ngroup (Some ngroup) counts nlevels nlevels nlevels ngroup lcost).

(** 12-110: the constructor for level sets of the matrix *)
Definition StatSpMat_levels (n nnz : nat) (Lp Li : list nat) : res stat :=
  DAG <- fs_csr_inspector_rows n Lp Li (repeat [] n) ;;
  StatSpMat_DAG n nnz Lp Li DAG.

(** 196-240: the constructor for a schedule of rows; npart is not set *)
Definition StatSpMat_lbc (n nnz : nat) (Lp Li levelPtr partPtr nodePtr : list nat) (levelNo partNo levelSetNo : nat) : res stat :=
  counts <- fs_csr_stat n Lp Li ;;
  lcost <- sptrsv_csr_lbc_stat true threads tid Lp levelNo levelPtr partPtr nodePtr (repeat 0 levelNo) ;;
  Ok (finish (Setup zero n nnz threads) partNo None counts levelSetNo levelNo levelNo partNo lcost).

(** 243-289: the constructor for a schedule of groups; partNo is not used *)
Definition StatSpMat_group_lbc (n nnz : nat) (Lp Li levelPtr partPtr nodePtr groupPtr groupSet : list nat) (levelNo partNo levelSetNo groupNo : nat) : res stat :=
  npart <- rd levelPtr levelNo ;;
  counts <- fs_csr_stat n Lp Li ;;
  lcost <- sptrsv_csr_group_lbc_stat true threads tid Lp levelNo levelPtr partPtr nodePtr groupPtr groupSet (repeat 0 levelNo) ;;
  Ok (finish (Setup zero n nnz threads) groupNo (Some npart) counts levelSetNo levelNo levelNo npart lcost).

(** StatSpMat.h 118-132: the setters of the times *)
Definition set_seq_time t s := mkStat (sn s) (snnz s) (snnz_rows s) (sgroup s) (spart s) (saccess s) (sreuse s) (sflops s) (slevels s) (ssys s) (sparallel s) (snnz_levels s) (savg s) (svar s) (ssum s) (score s) (Some t) (st_group s) (st_lbc s) (st_level s).
Definition set_level_time t s := mkStat (sn s) (snnz s) (snnz_rows s) (sgroup s) (spart s) (saccess s) (sreuse s) (sflops s) (slevels s) (ssys s) (sparallel s) (snnz_levels s) (savg s) (svar s) (ssum s) (score s) (st_serial s) (st_group s) (st_lbc s) (Some t).
Definition set_lbc_time t s := mkStat (sn s) (snnz s) (snnz_rows s) (sgroup s) (spart s) (saccess s) (sreuse s) (sflops s) (slevels s) (ssys s) (sparallel s) (snnz_levels s) (savg s) (svar s) (ssum s) (score s) (st_serial s) (st_group s) (Some t) (st_level s).
Definition set_glevel_time t s := mkStat (sn s) (snnz s) (snnz_rows s) (sgroup s) (spart s) (saccess s) (sreuse s) (sflops s) (slevels s) (ssys s) (sparallel s) (snnz_levels s) (savg s) (svar s) (ssum s) (score s) (st_serial s) (Some t) (st_lbc s) (st_level s).

(** 304-326: PrintData, the values in the order of the columns *)
Inductive cell := CInt (x : nat) | CQuo (q : nat * nat) | CDev (q : Z * Z) | CTime (t : T).
Definition get {A} (o : option A) : res A := match o with Some a => Ok a | None => Err Uninit end.
Definition PrintData (s : stat) : res (list cell) :=
  g <- get (sgroup s) ;; p <- get (spart s) ;; a <- get (saccess s) ;; r <- get (sreuse s) ;; f <- get (sflops s) ;;
  l <- get (slevels s) ;; y <- get (ssys s) ;; par <- get (sparallel s) ;; nl <- get (snnz_levels s) ;;
  av <- get (savg s) ;; v <- get (svar s) ;; u <- get (ssum s) ;;
  t1 <- get (st_serial s) ;; t2 <- get (st_group s) ;; t3 <- get (st_lbc s) ;; t4 <- get (st_level s) ;;
  Ok [CInt (sn s); CInt (snnz s); CQuo (snnz_rows s); CInt g; CInt p; CInt a; CInt r; CInt f; CInt l; CInt y; CQuo par; CQuo nl;
      CQuo av; CDev v; CInt u; CInt (score s); CTime t1; CTime t2; CTime t3; CTime t4].
End Times.

Example statspmat_run :
  match StatSpMat_levels 0 2 (fun _ j => j mod 2) 4 8 [0;1;3;5;8] [0;0;1;1;2;0;2;3] with
  | Ok s => sgroup s = Some 1 /\ slevels s = Some 1
  | Err _ => False end.
Proof. vm_compute. auto. Qed.
