(** Model of class group (include/aggregation/group.h, src/group.cpp; src/Group/Group.cpp
    11-60, 166-217, 298-313 has the same functions) and of the inspector that derives the
    group graph from rows (src/group_utils.cpp, example/sptrsv_demo_utils.h).
    Group numbers of "no child" are -1 in the code: [None] here.  Arrays the constructor
    clears (group.h 43-57) start as zeros. *)
From Verif Require Import Base Lib M_LevelSet M_SpTRSV.

(** group.cpp 25-48 = 170-193: emit the runs that [next] describes.  0 in [next] means "no successor". *)
Definition emit_groups (n : nat) (next groupPtr groupSet groupInv : list nat) : res (nat * (list nat * list nat * list nat)) :=
  r <- for_ 0 n (fun i st =>
    let '(vis, gp, gs, inv, pos, index) := st in
    seen <- rd vis i ;;
    if seen : bool then Ok st else
    gp <- wr gp index pos ;;
    vis <- wr vis i true ;;
    gs <- wr gs pos i ;;
    inv <- wr inv i index ;;
    ch <- rd next i ;;
    '(vis, gs, inv, pos, _) <- while_ (S n)
      (fun '(vis, gs, inv, pos, ch) => if ch =? 0 then Ok false else v <- rd vis ch ;; Ok (negb v))
      (fun '(vis, gs, inv, pos, ch) =>
         gs <- wr gs pos ch ;;
         inv <- wr inv ch index ;;
         vis <- wr vis ch true ;;
         ch' <- rd next ch ;;
         Ok (vis, gs, inv, S pos, ch'))
      (vis, gs, inv, S pos, ch) ;;
    Ok (vis, gp, gs, inv, pos, S index))
    (repeat false n, groupPtr, groupSet, groupInv, 0, 0) ;;
  let '(_, gp, gs, inv, pos, index) := r in
  gp <- wr gp index pos ;;
  Ok (index, (gp, gs, inv)).

(** group.cpp 10-53 inspection_spicocsc_v1 *)
Definition inspection_spicocsc_v1 (n : nat) (mP mI groupPtr groupSet groupInv : list nat) :=
  child <- for_ 0 n (fun i child =>
    a <- rd mP i ;; b <- rd mP (S i) ;;
    if 1 <? b - a then c <- rd mI (S a) ;; wr child i (Some c) else wr child i None) (repeat None n) ;;
  '(next, _) <- for_ 0 n (fun i '(next, pre) =>
    c <- rd child i ;;
    match c with
    | Some ch => if (Z.of_nat ch - Z.of_nat i =? 1)%Z then next <- wr next i ch ;; pre <- wr pre ch i ;; Ok (next, pre) else Ok (next, pre)
    | None => Ok (next, pre)
    end) (repeat 0 n, repeat 0 n) ;;
  emit_groups n next groupPtr groupSet groupInv.

(** group.cpp 154-196 inspection_sptrsvcsr_v1 *)
Definition inspection_sptrsvcsr_v1 (n : nat) (mP mI groupPtr groupSet groupInv : list nat) :=
  child <- for_ 0 n (fun i child =>
    a <- rd mP i ;; b <- rd mP (S i) ;;
    if 1 <? b - a then c <- rd mI (b - 2) ;; wr child i (Some c) else wr child i None) (repeat None n) ;;
  '(next, _) <- for_ 1 n (fun i '(next, pre) =>
    c <- rd child i ;;
    match c with
    | Some ch => if (Z.of_nat i - Z.of_nat ch =? 1)%Z then next <- wr next ch i ;; pre <- wr pre i ch ;; Ok (next, pre) else Ok (next, pre)
    | None => Ok (next, pre)
    end) (repeat 0 n, repeat 0 n) ;;
  emit_groups n next groupPtr groupSet groupInv.

(** group.cpp 269-281; index is an int that starts at 0, so index-1 is -1 only before the first block *)
Definition NaiveGrouping (n : nat) (groupPtr groupSet ginv : list nat) (blksize : nat) :=
  r <- for_ 0 n (fun i '(gp, gs, inv, pos, index) =>
    if blksize =? 0 then Err DivZero else
    '(gp, index) <- (if i mod blksize =? 0 then gp <- wr gp index pos ;; Ok (gp, S index) else Ok (gp, index)) ;;
    gs <- wr gs pos i ;;
    inv <- wr inv i (index - 1) ;;
    Ok (gp, gs, inv, S pos, index))
    (groupPtr, groupSet, ginv, 0, 0) ;;
  let '(gp, gs, inv, _, index) := r in
  gp <- wr gp index n ;;
  Ok (index, (gp, gs, inv)).

(** group_utils.cpp 11-28 fs_csr_inspector_dep on groups: edges by source group, with repetition *)
Definition fs_csr_inspector_dep (ngroup : nat) (groupPtr groupSet gInv Lp Li : list nat) (DAG : list (list nat)) : res (list (list nat)) :=
  for_ 0 ngroup (fun i DAG =>
    a <- rd groupPtr i ;; b <- rd groupPtr (S i) ;;
    for_ a b (fun j DAG =>
      iidx <- rd groupSet j ;;
      c <- rd Lp iidx ;; d <- rd Lp (S iidx) ;;
      for_ c (d - 1) (fun k DAG =>
        x <- rd Li k ;; sid <- rd gInv x ;;
        if sid =? i then Ok DAG else l <- rd DAG sid ;; wr DAG sid (l ++ [i])) DAG) DAG) DAG.

(** sptrsv_demo_utils.h 411-433: remove adjacent repetitions (std::unique), pack the lists with the
    diagonal first into arrays of n+1 and count+n cells *)
Definition pack_group_dag (n ngroup : nat) (DAG : list (list nat)) : res (list nat * list nat) :=
  let DAG := map uniq DAG in
  let count := list_sum (map (@length nat) DAG) in
  '(gv, gedg, edges) <- for_ 0 ngroup (fun cti '(gv, gedg, edges) =>
     gv <- wr gv cti edges ;;
     gedg <- wr gedg edges cti ;;
     l <- rd DAG cti ;;
     '(gedg, edges) <- foreach l (fun x '(gedg, edges) => gedg <- wr gedg edges x ;; Ok (gedg, S edges)) (gedg, S edges) ;;
     Ok (gv, gedg, edges)) (repeat 0 (n + 1), repeat 0 (count + n), 0) ;;
  gv <- wr gv ngroup edges ;;
  Ok (gv, gedg).

(** sptrsv_demo_utils.h 393-450 SpTrsvCSR_Grouping: build_set, then the program fused_code runs.
    The rows are those of L; all arrays are zeroed by the class. *)
Definition grouping_prog (n : nat) (Lp Li : list nat) : res prog :=
  '(ngroup, (groupPtr, groupSet, groupInv)) <- inspection_sptrsvcsr_v1 n Lp Li (repeat 0 (n + 1)) (repeat 0 n) (repeat 0 n) ;;
  DAG <- fs_csr_inspector_dep ngroup groupPtr groupSet groupInv Lp Li (repeat [] ngroup) ;;
  '(gv, gedg) <- pack_group_dag n ngroup DAG ;;
  '(nlevels, (levelPtr, levelSet)) <- buildLevelSet_CSC_Queue ngroup gv gedg (repeat 0 (n + 1)) (repeat 0 n) ;;
  group_levelset_prog nlevels levelPtr levelSet groupPtr groupSet.
