(** Model of the parallel version of load-balanced coarsening, src/lbc_csc_dag.cpp 32-399.

    The slabs are distributed over the threads; every thread has its own work arrays and writes only the
    cells [l] of mergedLeveledParListByL and outinnerPartsList for its slabs [l].  So the threads do not
    influence each other, and the model runs them one after the other.  Which thread gets which slabs, and in
    which order it does them, is the parameter [dist].  The component search of a large slab runs on several
    threads; M_CC/P_CC treat all its interleavings and show that the result is the one of [parallel_cc]. *)
From Coq Require Import ZArith.
From Verif Require Import Base Lib M_LevelSet M_CC M_LBC.

Section LBCPar.
Context {T : Type}.
Variables (zero : T) (add : T -> T -> T) (ltb : T -> T -> bool) (int_max : T).
Variable sortp : list (T * list nat) -> list (T * list nat).
(** what remains of outCost when the additions of line 83 race (large slabs with several threads) *)
Variable racy : nat -> list T -> list T.
(** distribution of the small slabs *)
Variable dist : list nat -> list (list nat).

(** 106-115: the nodes of the slab (the array nodesAtCurLevel has n cells), and the entries of their columns counted per row *)
Definition collect_slab (n : nat) (lC lR levelPtr levelSet : list nat) (dfsLevel ubLevel : nat) : res (list nat * list Z) :=
  for_ dfsLevel ubLevel (fun ii st => p <- rd levelPtr ii ;; q <- rd levelPtr (S ii) ;;
    for_ p q (fun j '(nodes, deg) =>
      x <- rd levelSet j ;;
      nodes <- (if length nodes <? n then Ok (nodes ++ [x]) else Err OOB) ;;
      a <- rd lC x ;; b <- rd lC (S x) ;;
      deg <- for_ a b (fun r deg => cn <- rd lR r ;; d <- rd deg cn ;; wr deg cn (d + 1)%Z) deg ;;
      Ok (nodes, deg)) st) ([], repeat 0%Z n).

(** 77-85: costs of the components and number of labels.  Without nodes max_cc is -1, which the
    caller treats like 0. *)
Definition cc_costs (labels nodes : list nat) (nodeCost outCost : list T) : res (list T * nat) :=
  foreach nodes (fun v '(out, mx) =>
    c <- rd labels v ;; o <- rd out c ;; x <- rd nodeCost v ;; out <- wr out c (add o x) ;; Ok (out, Nat.max mx (S c))) (outCost, 0).

(** work arrays of a thread: visited, outCost, newOutCost, node2partition.  inDegree is cleared for every
    slab, nodesAtCurLevel is written before it is read. *)
Record tstate := mkT { t_vis : list bool; t_out : list T; t_new : list T; t_n2p : list nat }.

(** 90-187 process_l_partition.  Result: the parts of slab [l].  curLeveledParCost is always 0, so of the
    threshold only the division remains. *)
Definition process_l_partition (n : nat) (lC lR levelPtr levelSet node2Level : list nat) (nodeCost : list T) (originalHeight : nat) (innerParts : Z)
    (innerPartsSize p2l : list nat) (binPacking large : bool) (l : nat) (s : tstate) : res (tstate * list (list nat)) :=
  dfsLevel <- rd p2l l ;;
  ubLevel <- rd p2l (S l) ;;
  '(nodes, deg) <- collect_slab n lC lR levelPtr levelSet dfsLevel ubLevel ;;
  labels <- parallel_cc lC lR dfsLevel ubLevel node2Level nodes (t_n2p s) ;;
  '(out, cc) <- cc_costs labels nodes nodeCost (t_out s) ;;
  let out := if large then racy l out else out in
  p <- rd levelPtr (dfsLevel - 1) ;; q <- rd levelPtr dfsLevel ;;
  visited <- for_ p q (fun j m => v <- rd levelSet j ;; wr m v true) (t_vis s) ;;
  visited <- mark_levels levelPtr levelSet ubLevel originalHeight true visited ;;
  '(_, visited, lists) <- modified_BFS_CSC n lC lR deg visited (map Some labels) levelPtr levelSet dfsLevel (repeat [] cc) ;;
  visited <- mark_levels levelPtr levelSet ubLevel originalHeight false visited ;;
  _ <- (if (innerParts =? 0)%Z then Err DivZero else Ok tt) ;;
  bins <- rd innerPartsSize l ;;
  '(parts, new) <- (if binPacking && (bins <? length lists)
     then worst_fit_bin_pack add ltb int_max sortp lists out (repeat [] bins) (t_new s) bins
     else Ok (lists, t_new s)) ;;
  Ok (mkT visited out new labels, parts).

(** the slabs of one thread, in this order; [merged] is mergedLeveledParListByL *)
Definition run_thread (n : nat) (lC lR levelPtr levelSet node2Level : list nat) (nodeCost : list T) (originalHeight : nat) (innerParts : Z)
    (innerPartsSize p2l : list nat) (binPacking large : bool) (slabs : list nat) (n2p0 : list nat) (merged : list (list (list nat))) : res (list (list (list nat))) :=
  '(_, merged) <- foreach slabs (fun l '(s, merged) =>
     '(s, parts) <- process_l_partition n lC lR levelPtr levelSet node2Level nodeCost originalHeight innerParts innerPartsSize p2l binPacking large l s ;;
     merged <- wr merged l parts ;; Ok (s, merged)) (mkT (repeat false n) (repeat zero n) (repeat zero n) n2p0, merged) ;;
  Ok merged.

(** 206-225: number of nodes of every slab *)
Definition slab_size (levelPtr levelSet : list nat) (dfsLevel ubLevel : nat) : res nat :=
  for_ dfsLevel ubLevel (fun ii c => p <- rd levelPtr ii ;; q <- rd levelPtr (S ii) ;;
    for_ p q (fun j c => _ <- rd levelSet j ;; Ok (S c)) c) 0.

Definition split_slabs (levelPtr levelSet p2l : list nat) (k : nat) : res (list nat * list nat) :=
  for_ 0 k (fun l '(large, small) =>
    b <- rd p2l (S l) ;; a <- rd p2l l ;; c <- slab_size levelPtr levelSet a b ;;
    Ok (if (250000 <? Z.of_nat c)%Z then (large ++ [l], small) else (large, small ++ [l]))) ([], []).

(** 300-322: append the parts of all slabs to the output *)
Definition emit_slabs (k : nat) (nodeCost : list T) (merged : list (list (list nat))) (levelPtr partPtr nodePtr : list nat)
  : res (list nat * list nat * list nat * nat) :=
  for_ 0 k (fun l '(fl, pp, np, cur) =>
    parts <- rd merged l ;; f <- rd fl l ;; fl <- wr fl (S l) (f + length parts) ;;
    '(pp, np, cur) <- foreach parts (fun p '(pp, np, cur) =>
       base <- rd pp cur ;;
       '(np, e) <- foreach p (fun v '(np, e) => _ <- rd nodeCost v ;; np <- wr np (base + e) v ;; Ok (np, S e)) (np, 0) ;;
       pp <- wr pp (S cur) (base + e) ;; Ok (pp, np, S cur)) (pp, np, cur) ;;
    Ok (fl, pp, np, cur)) (levelPtr, partPtr, nodePtr, 0).

(** 323-399 get_coarse_Level_set_DAG_CSC03_parallel with make_partitions_parallel (189-321).  [junk] is the content of
    node2partition when it is allocated.  Large slabs: the loop is outside of a parallel region, so one thread does
    them in order. *)
Definition get_coarse_Level_set_DAG_CSC03_parallel (junk : list nat) (n : nat) (lC lR : list nat) (innerParts minLevelDist divRate : Z) (nodeCost : list T)
    (binPacking : bool) : res (nat * (list nat * list nat * list nat)) :=
  '(levelNo, (levelPtr, levelSet)) <- build_levelSet_CSC_alloc n lC lR ;;
  if (levelNo <? 0)%Z then Err Throw else
  let levelNo := Z.to_nat levelNo in
  node2Level <- for_ 0 levelNo (fun i n2l => a <- rd levelPtr i ;; b <- rd levelPtr (S i) ;;
    for_ a b (fun j n2l => v <- rd levelSet j ;; wr n2l v i) n2l) (repeat 0 n) ;;
  '(k, (sizes, p2l)) <- height_partitioning_DAG_trng levelNo levelPtr levelNo innerParts minLevelDist divRate (repeat 0 (levelNo + 1)) ;;
  finalLevel <- wr (repeat 0 (n + 1)) 0 0 ;;
  '(large, small) <- split_slabs levelPtr levelSet p2l k ;;
  merged <- run_thread n lC lR levelPtr levelSet node2Level nodeCost levelNo innerParts sizes p2l binPacking true large junk (repeat [] k) ;;
  merged <- foreach (dist small) (fun slabs merged =>
    run_thread n lC lR levelPtr levelSet node2Level nodeCost levelNo innerParts sizes p2l binPacking false slabs junk merged) merged ;;
  '(fl, pp, np, _) <- emit_slabs k nodeCost merged finalLevel (repeat 0 n) (repeat 0 n) ;;
  if k =? 0 then Err DivZero else Ok (k, (fl, pp, np)).

End LBCPar.

(** three chains of three nodes on two threads, the first taking slabs 0 and 2 *)
Example lbc_par_run : get_coarse_Level_set_DAG_CSC03_parallel 0 Nat.add Nat.ltb 1000 (fun l => l) (fun _ x => x) (fun _ => [[0;2];[1]])
  [9;9;9;9;9;9;9;9;9] 9 [0;2;4;6;8;10;12;13;14;15] [0;3;1;4;2;5;3;6;4;7;5;8;6;7;8] 2 1 1 (repeat 1 9) true
  = Ok (3, ([0;1;3;4;0;0;0;0;0;0], [0;3;5;6;9;0;0;0;0], [0;1;2;3;5;4;6;7;8])).
Proof. vm_compute. reflexivity. Qed.
