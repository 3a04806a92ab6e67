(** Models of the tree version of load-balanced coarsening: utils/sparse_inspector.cpp 459-538,
    utils/sparse_utilities.cpp 933-1064, src/lbc_utils.cpp 263-344, src/lbc_tree.cpp.

    A tree (forest) is an array of parents; a negative entry is no parent.  Costs are doubles with
    parametric operations as in M_LBC.v. *)
From Verif Require Import Base Lib M_Tree M_LBC.

(** * Level sets of a tree *)

(** sparse_inspector.cpp 459-498 build_level_set_tree_efficient.  [levelPtr], [levelSet],
    [node2level] are the caller's arrays.  The walk of 466-475 climbs at most n edges in a forest;
    its boolean is true after the [break].  The [assert] of 482 is compiled out in release builds
    and left out.  Result: number of levels and the arrays. *)
Definition build_level_set_tree_efficient (n : nat) (tree : list Z) (nChild1 levelPtr levelSet node2level : list nat)
  : res (nat * (list nat * list nat * list nat)) :=
  '(maxLen, levelPtr, levelSet, node2level) <- for_ 0 n (fun i '(maxLen, levelPtr, levelSet, node2level) =>
     c <- rd nChild1 i ;;
     if c =? 0 then
       q <- rd levelPtr 1 ;;
       levelSet <- wr levelSet q i ;;
       levelPtr <- wr levelPtr 1 (S q) ;;
       '(_, _, level, node2level) <- while_ (S (S n))
         (fun '(stop, node, level, node2level) => t <- rd tree node ;; Ok (negb stop && (0 <=? t)%Z))
         (fun '(_, node, level, node2level) =>
            t <- rd tree node ;;
            let node := Z.to_nat t in
            let level := S level in
            o <- rd node2level node ;;
            if level <? o then Ok (true, node, level, node2level)
            else node2level <- wr node2level node level ;; Ok (false, node, level, node2level))
         (false, i, 0, node2level) ;;
       Ok (if maxLen <? level then level else maxLen, levelPtr, levelSet, node2level)
     else Ok (maxLen, levelPtr, levelSet, node2level)) (0, levelPtr, levelSet, node2level) ;;
  let num_levels := S maxLen in
  level_cnt <- for_ 0 n (fun j cn => l <- rd node2level j ;; c <- rd cn l ;; wr cn l (S c)) (repeat 0 n) ;;
  '(levelPtr, level_cnt) <- for_ 2 (S num_levels) (fun k '(lp, cn) =>
     a <- rd lp (k - 1) ;; b <- rd cn (k - 1) ;; lp <- wr lp k (a + b) ;; cn <- wr cn (k - 1) 0 ;; Ok (lp, cn)) (levelPtr, level_cnt) ;;
  level_cnt <- wr level_cnt 1 0 ;;
  '(levelSet, level_cnt) <- for_ 0 n (fun l '(ls, cn) =>
     lev <- rd node2level l ;;
     if lev =? 0 then Ok (ls, cn) else
     a <- rd levelPtr lev ;; c <- rd cn lev ;; ls <- wr ls (a + c) l ;; cn <- wr cn lev (S c) ;; Ok (ls, cn)) (levelSet, level_cnt) ;;
  Ok (num_levels, (levelPtr, levelSet, node2level)).

(** sparse_inspector.cpp 501-550 build_level_set_tree.  [begin] and [end_] bound the nodes that are
    left; they are ints, so [end_] is -1 for n = 0.  Every round of the outer loop finds a node in a
    forest.  Result: number of levels, levelPtr, levelSet. *)
Definition build_level_set_tree (n : nat) (tree : list Z) (levelPtr levelSet : list nat) : res (nat * (list nat * list nat)) :=
  nChild <- for_ 0 n (fun k nc => p <- rd tree k ;;
    if (0 <=? p)%Z then c <- rdZ nc p ;; wrZ nc p (c + 1)%Z else Ok nc) (repeat 0%Z n) ;;
  levelPtr <- wr levelPtr 0 0 ;;
  '(_, _, _, _, cur, _, levelPtr, levelSet, _) <- while_ (S n)
    (fun '(stop, begin, end_, nc, cur, cnt, lp, ls, vis) => Ok (negb stop && (begin <=? end_)%Z))
    (fun '(_, begin, end_, nc, cur, cnt, lp, ls, vis) =>
       '(cnt, ls, vis) <- for_ (Z.to_nat begin) (Z.to_nat (end_ + 1)) (fun i '(cnt, ls, vis) =>
          c <- rd nc i ;;
          if (c =? 0)%Z then
            v <- rd vis i ;;
            if v : bool then Ok (cnt, ls, vis)
            else vis <- wr vis i true ;; ls <- wr ls cnt i ;; Ok (S cnt, ls, vis)
          else Ok (cnt, ls, vis)) (cnt, ls, vis) ;;
       let cur := S cur in
       lp <- wr lp cur cnt ;;
       if cnt =? n then Ok (true, begin, end_, nc, cur, cnt, lp, ls, vis) else
       begin <- while_ (S n) (fun b => c <- rdZ nc b ;; Ok (c =? 0)%Z) (fun b => Ok (b + 1)%Z) begin ;;
       end_ <- while_ (S n) (fun e => c <- rdZ nc e ;; Ok ((c =? 0)%Z && (begin <=? e)%Z)) (fun e => Ok (e - 1)%Z) end_ ;;
       a <- rd lp (cur - 1) ;; b <- rd lp cur ;;
       nc <- for_ a b (fun l nc => cc <- rd ls l ;; p <- rd tree cc ;;
          if (0 <=? p)%Z then c <- rdZ nc p ;; wrZ nc p (c - 1)%Z else Ok nc) nc ;;
       Ok (false, begin, end_, nc, cur, cnt, lp, ls, vis))
    (false, 0%Z, (Z.of_nat n - 1)%Z, nChild, 0, 0, levelPtr, levelSet, repeat false n) ;;
  Ok (cur, (levelPtr, levelSet)).

(** * Splitting a forest into trees *)

Section Split.
Context {T : Type} {DT : Dflt T}.
Variables (add : T -> T -> T).

(** sparse_utilities.cpp 991-998: mark from [k] up to the bottom of the stack *)
Definition mark_up (n : nat) (inTree : list Z) (stack : list nat) (k : nat) (mark : list bool) : res (list bool) :=
  '(tmpk, mark) <-
    (match stack with
     | [] => Ok (Z.of_nat k, mark)
     | s :: t => while_ (S n)
         (fun '(tmpk, mark) => Ok (negb (tmpk =? Z.of_nat (last t s))%Z))
         (fun '(tmpk, mark) => mark <- wrZ mark tmpk true ;; t <- rdZ inTree tmpk ;; Ok (t, mark))
         (Z.of_nat k, mark)
     end) ;;
  wrZ mark tmpk true.

(** 970, 1003: nChild[v]--.  A counter that would become negative is an error here; the theorems
    show that it does not happen. *)
Definition decr (nChild : list nat) (v : Z) : res (list nat) :=
  c <- rdZ nChild v ;; match c with 0 => Err Throw | S c => wrZ nChild v c end.

(** state of the loops: stack (front first), visited, mark, nChild, the part in progress, outCost *)
Definition pstate : Type := list nat * list bool * list bool * list nat * list nat * list T.

(** 984-1008: the children of [k]; leaves go to the part, the others on the stack *)
Definition split_child (n : nat) (inTree : list Z) (inCost : list T) (childNo : list nat) (curPart k : nat) (i : nat) (s : pstate) : res pstate :=
  let '(stack, vis, mark, nChild, part, outCost) := s in
  ch <- rd childNo i ;;
  v <- rd vis ch ;;
  if v : bool then Ok s else
  c <- rd nChild ch ;;
  if c =? 0 then
    vk <- rd vis k ;;
    mark <- (if vk : bool then Ok mark else mark_up n inTree stack k mark) ;;
    o <- rd outCost curPart ;; x <- rd inCost ch ;; outCost <- wr outCost curPart (add o x) ;;
    vis <- wr vis ch true ;;
    t <- rd inTree ch ;;
    nChild <- decr nChild t ;;
    Ok (stack, vis, mark, nChild, part ++ [ch], outCost)
  else Ok (ch :: stack, vis, mark, nChild, part, outCost).

(** 962-1009: one round of the loop; the boolean is true after the [break] *)
Definition split_step (n : nat) (inTree : list Z) (inCost : list T) (childPtr childNo : list nat) (curPart : nat) (s : bool * pstate) : res (bool * pstate) :=
  let '(_, (stack, vis, mark, nChild, part, outCost)) := s in
  match stack with
  | [] => Err OOB
  | k :: rest =>
      c <- rd nChild k ;;
      if c =? 0 then
        o <- rd outCost curPart ;; x <- rd inCost k ;; outCost <- wr outCost curPart (add o x) ;;
        vis <- wr vis k true ;;
        p <- rd inTree k ;;
        if (0 <=? p)%Z then
          nChild <- decr nChild p ;;
          vp <- rdZ vis p ;;
          if vp : bool then Ok (false, (rest, vis, mark, nChild, part ++ [k], outCost))
          else
            mp <- rdZ mark p ;;
            mark <- wrZ mark p true ;;
            Ok (false, (if mp : bool then rest else Z.to_nat p :: rest, vis, mark, nChild, part ++ [k], outCost))
        else Ok (true, (rest, vis, mark, nChild, part ++ [k], outCost))
      else
        a <- rd childPtr k ;; b <- rd childPtr (S k) ;;
        s <- for_ a b (split_child n inTree inCost childNo curPart k) (stack, vis, mark, nChild, part, outCost) ;;
        Ok (false, s)
  end.

(** 933-1064 post_order_spliting.  [partitionNum] only divides (942); the threshold is not used, so
    only its division by zero is kept.  parList is empty on entry; outNode2Par (1033-1037) is left
    out.  Each round of the inner loop adds a node to the part or pushes one.  Result: parList,
    outCost, nChild; outSize is the length of parList. *)
Definition post_order_spliting (n : nat) (inTree : list Z) (inCost : list T) (childPtr childNo nChild : list nat) (partitionNum : nat) (outCost : list T)
  : res (list (list nat) * list T * list nat) :=
  if partitionNum =? 0 then Err DivZero else
  '(parts, _, _, _, nChild, outCost) <- for_ 0 n (fun curNode '(parts, stack, vis, mark, nChild, outCost) =>
     t <- rd inTree curNode ;;
     if (t =? -2)%Z then Ok (parts, stack, vis, mark, nChild, outCost) else
     v <- rd vis curNode ;;
     if v : bool then Ok (parts, stack, vis, mark, nChild, outCost) else
     '(_, (stack, vis, mark, nChild, part, outCost)) <- while_ (S (S (2 * n)))
        (fun '(stop, (stack, _, _, _, _, _)) => Ok (negb stop && negb (length stack =? 0)))
        (split_step n inTree inCost childPtr childNo (length parts))
        (false, (stack ++ [curNode], vis, mark, nChild, [], outCost)) ;;
     Ok (parts ++ [part], stack, vis, mark, nChild, outCost))
    ([], [], repeat false n, repeat false n, nChild, outCost) ;;
  Ok (parts, outCost, nChild).

End Split.

(** * Height partitioning of a tree *)

(** lbc_utils.cpp 322-327: climb down from the root while the levels are narrow.  The boolean is
    true after the [break]; the array is read before the bound is tested. *)
Definition level_cut (levelNo : nat) (accu : list nat) (innerParts : Z) : res nat :=
  '(_, cut) <- while_ (S (S levelNo))
    (fun '(stop, cut) =>
       if stop : bool then Ok false else
       w <- rdZ accu (Z.of_nat levelNo - Z.of_nat cut - 1) ;; Ok ((Z.of_nat w <=? innerParts)%Z && (cut <? levelNo)))
    (fun '(_, cut) => let cut := S cut in
       Ok ((Z.of_nat levelNo - Z.of_nat cut - 1 <? 0)%Z || (Z.of_nat levelNo <=? Z.of_nat levelNo - Z.of_nat cut - 1)%Z, cut))
    (false, 0) ;;
  Ok cut.

(** lbc_utils.cpp 263-344 height_partitioning with sw = false and originalHeight = levelNo (the
    calls: lbc_tree.cpp 160-164 and lbc_blocked.cpp).  Unused arguments are left out.  innerPartsTmp at least halves in every
    round.  Result: number of slabs, innerPartsSize, partition2Level. *)
Definition height_partitioning (levelNo : nat) (levelPtr : list nat) (innerParts minLevelDist divRate : Z) (p2l : list nat)
  : res (nat * (list nat * list nat)) :=
  let divRate := if (divRate <=? 1)%Z then 10%Z else divRate in
  if levelNo <=? 2 then
    p2l <- wr p2l 0 0 ;; p2l <- wr p2l 1 levelNo ;; Ok (1, ([1], p2l))
  else
    accu <- for_ 0 levelNo (fun i accu => a <- rd levelPtr i ;; b <- rd levelPtr (S i) ;; wr accu i (b - a)) (repeat 0 levelNo) ;;
    p2l <- wr p2l 0 0 ;;
    '(_, cnt, sizes, p2l) <- while_ (S (Z.to_nat innerParts))
      (fun '(ip, cnt, sizes, p2l) => Ok (1 <? ip)%Z)
      (fun '(ip, cnt, sizes, p2l) =>
         cut <- level_cut levelNo accu ip ;;
         let tmp := (Z.of_nat levelNo - Z.of_nat cut - minLevelDist)%Z in
         last <- rd p2l cnt ;;
         '(cnt, p2l) <- (if ((Z.of_nat last <? tmp) && (tmp <? Z.of_nat levelNo))%Z
                         then p2l <- wr p2l (S cnt) (Z.to_nat tmp) ;; Ok (S cnt, p2l) else Ok (cnt, p2l)) ;;
         Ok ((ip / divRate)%Z, cnt, sizes ++ [Z.to_nat ip], p2l))
      (innerParts, 0, [], p2l) ;;
    p2l <- wr p2l (S cnt) (S levelNo) ;;
    Ok (S cnt, (sizes ++ [1], p2l)).

(** * The coarsening *)

Section Tree.
Context {T : Type} {DT : Dflt T}.
Variables (zero : T) (add : T -> T -> T) (ltb : T -> T -> bool) (int_max : T).
Variable sortp : list (T * list nat) -> list (T * list nat).

(** a read beyond the end: an error for [None]; [Some g] reads the value g instead *)
Definition rd_stray (stray : option nat) (l : list nat) (i : nat) : res nat :=
  if i <? length l then Ok l.[i] else match stray with None => Err OOB | Some g => Ok g end.

Record tstate := mkT { t_cp : list nat; t_cn : list nat; t_new : list T; t_levelPtr : list nat; t_partPtr : list nat; t_nodePtr : list nat; t_parts : nat }.

(** lbc_tree.cpp 230-248: the tree of the slab [lo,hi).  levelCost[i] only adds to a cost that is not
    used (227, 231, 287); of it only the bound levelNo of the array is kept.  The test l + 1 <=
    lClusterCnt (239) always holds; ccc (243) is not used. *)
Definition slab_tree (stray : option nat) (n : nat) (eTree : list Z) (levelNo : nat) (levelPtr levelSet node2Level : list nat) (nodeCost : list T) (lo hi : nat)
  : res (list Z) :=
  for_ lo hi (fun i tt =>
    _ <- rd_stray stray (repeat 0 levelNo) i ;;
    a <- rd_stray stray levelPtr i ;; b <- rd_stray stray levelPtr (S i) ;;
    for_ a b (fun j tt =>
      v <- rd levelSet j ;;
      par <- rd eTree v ;;
      lv <- (if (0 <=? par)%Z then rdZ node2Level par else Ok (S levelNo)) ;;
      if (lv <? hi) && (lo <=? lv) then _ <- rd nodeCost v ;; wr tt v par
      else wr tt v (-1)%Z) tt) (repeat (-2)%Z n).

(** lbc_tree.cpp 225-381: one slab.  innerParts is innerPartsSize[l] (228).  The loop of 337-352 is
    the one of lbc_csc_dag.cpp 620-636 (emit_parts) but for curPartCost, which is not used. *)
Definition tree_slab (stray : option nat) (n : nat) (eTree : list Z) (levelNo : nat) (levelPtr levelSet node2Level : list nat) (nodeCost : list T)
    (sizes p2l : list nat) (l : nat) (s : tstate) : res tstate :=
  bins <- rd sizes l ;;
  lo <- rd p2l l ;; hi <- rd p2l (S l) ;;
  tt <- slab_tree stray n eTree levelNo levelPtr levelSet node2Level nodeCost lo hi ;;
  '(cp, cn, nc) <- populate_children n tt (t_cp s) (t_cn s) (repeat 0 n) ;;
  '(lists, outCost, _) <- post_order_spliting add n tt nodeCost cp cn nc bins (repeat zero n) ;;
  '(parts, newOutCost) <- (if bins <? length lists
     then worst_fit_bin_pack add ltb int_max sortp lists outCost (repeat [] bins) (t_new s) bins
     else Ok (lists, t_new s)) ;;
  fl <- rd (t_levelPtr s) l ;;
  flp <- wr (t_levelPtr s) (S l) (fl + length parts) ;;
  '(_, pp, np, cur) <- emit_parts parts (repeat None n) (t_partPtr s) (t_nodePtr s) (t_parts s) ;;
  Ok (mkT cp cn newOutCost flp pp np cur).

(** lbc_tree.cpp 10-429 get_coarse_levelSet_tree.  [cap] is the number of cells of finalPartPtr: n in
    the code.  subTreeCost (111) is computed but not used; compute_subtree_cost stays in bounds (C67).
    The cells of finalNodePtr and finaLevelPtr that the code leaves uninitialised are 0 here.  The
    branch of 92-101 needs levelNo = 0, which build_level_set_tree_efficient never returns; it is left
    out.  The [assert]s are compiled out in release builds and left out.
    Result: finaLevelNo, finaLevelPtr, finalPartPtr, finalNodePtr; partNo is finaLevelPtr[finaLevelNo]. *)
Definition get_coarse_levelSet_tree (stray : option nat) (cap n : nat) (eTree : list Z) (innerParts minLevelDist divRate : Z) (nodeCost : list T)
  : res (nat * (list nat * list nat * list nat)) :=
  nChild <- for_ 0 n (fun l nc => p <- rd eTree l ;; if (0 <=? p)%Z then c <- rdZ nc p ;; wrZ nc p (S c) else Ok nc) (repeat 0 n) ;;
  '(levelNo, (levelPtr, levelSet, node2Level)) <-
    build_level_set_tree_efficient n eTree nChild (repeat 0 (n + 1)) (repeat 0 n) (repeat 0 n) ;;
  _ <- for_ 0 n (fun i lc => v <- rd node2Level i ;; o <- rd lc v ;; x <- rd nodeCost i ;; wr lc v (add o x)) (repeat zero levelNo) ;;
  '(k, (sizes, p2l)) <- height_partitioning levelNo levelPtr innerParts minLevelDist divRate (repeat 0 (levelNo + 1)) ;;
  flp <- wr (repeat 0 (n + 1)) 0 0 ;;
  s <- for_ 0 k (tree_slab stray n eTree levelNo levelPtr levelSet node2Level nodeCost sizes p2l)
    (mkT (repeat 0 (n + 1)) (repeat 0 n) (repeat zero n) flp (repeat 0 cap) (repeat 0 n) 0) ;;
  _ <- rd (t_levelPtr s) k ;;
  Ok (k, (t_levelPtr s, t_partPtr s, t_nodePtr s)).

End Tree.
