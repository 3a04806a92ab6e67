(** Model of the LBC coarsening of a DAG (src/lbc_utils.cpp, src/lbc_csc_dag.cpp 401-685) and of
    modified_BFS_CSC (utils/sparse_utilities.cpp 591-618).

    Costs are doubles: their type, zero, sum, the test [<] and the constant INT_MAX (converted to
    double in find_min) are parameters, so the theorems hold for every rounding.  The order
    std::sort gives to parts of equal cost is not specified; the sort is a parameter too, of
    which the theorems assume only that it permutes its argument.
    Part number -1 is [None]; marks are 0, 1 and -1 as in the code. *)
From Verif Require Import Base Lib M_LevelSet.

Section Cost.
Context {T : Type}.
Variables (zero : T) (add : T -> T -> T) (ltb : T -> T -> bool) (int_max : T).
Variable sortp : list (T * list nat) -> list (T * list nat).

(** lbc_utils.cpp 149-159 *)
Definition find_min (cost : list T) (size : nat) : res nat :=
  '(_, b) <- for_ 0 size (fun i '(m, b) => c <- rd cost i ;; Ok (if ltb c m then (c, i) else (m, b))) (int_max, 0) ;;
  Ok b.

(** lbc_utils.cpp 162-186; costThreshold is not used by the code *)
Definition worst_fit_bin_pack (parts : list (list nat)) (inCost : list T) (merged : list (list nat)) (outCost : list T) (numOfBins : nat)
  : res (list (list nat) * list T) :=
  pl <- for_ 0 (length parts) (fun i pl => c <- rd inCost i ;; p <- rd parts i ;; Ok (pl ++ [(c, p)])) [] ;;
  foreach (sortp pl) (fun '(c, p) '(merged, outCost) =>
    b <- find_min outCost numOfBins ;;
    o <- rd outCost b ;; outCost <- wr outCost b (add o c) ;;
    l <- rd merged b ;; merged <- wr merged b (l ++ p) ;;
    Ok (merged, outCost)) (merged, outCost).

End Cost.

(** lbc_utils.cpp 122-141 merge_inner_part.  Costs are ints here (Z, no overflow modelled).
    The endless loop for a threshold <= 0 ends in an out-of-bounds access of outCost. *)
Definition merge_inner_part (parts : list (list nat)) (inCost : list Z) (merged : list (list nat)) (outCost : list Z) (threshold : Z)
  : res (nat * (list (list nat) * list Z)) :=
  let partNo := length parts in
  '(_, k, merged, outCost) <- while_ (partNo + S (length outCost))
    (fun '(i, k, merged, outCost) => Ok (i <? partNo))
    (fun '(i, k, merged, outCost) =>
       '(i, cur, merged) <- while_ (S partNo)
          (fun '(i, cur, merged) => Ok ((cur <? threshold)%Z && (i <? partNo)))
          (fun '(i, cur, merged) =>
             c <- rd inCost i ;; l <- rd merged k ;; p <- rd parts i ;; merged <- wr merged k (l ++ p) ;;
             Ok (S i, (cur + c)%Z, merged))
          (i, 0%Z, merged) ;;
       outCost <- wr outCost (S k) cur ;;
       Ok (i, S k, merged, outCost))
    (0, 0, merged, outCost) ;;
  Ok (k, (merged, outCost)).

(** lbc_utils.cpp 196-205: one plus the last level that does not have exactly one node, 0 if there is none *)
Fixpoint last_wide (levelPtr : list nat) (k : nat) : res nat :=
  match k with
  | 0 => Ok 0
  | S i => a <- rd levelPtr i ;; b <- rd levelPtr (S i) ;; if (Z.of_nat b - Z.of_nat a =? 1)%Z then last_wide levelPtr i else Ok (S i)
  end.

(** lbc_utils.cpp 232-238, 244-250: the number of bins of a slab whose last level has w nodes *)
Definition inner_size (w nthreads : nat) : nat := if nthreads <=? w then nthreads else if 1 <? w then w else 1.

(** lbc_utils.cpp 189-260 height_partitioning_DAG_trng.  Result: number of slabs, innerPartsSize, partition2Level.
    Unused arguments (node2Level, slackGroups, subTreeCost, sw) are left out.  Every round of the
    loop writes one more cell of partition2Level, so the fuel is only an artefact. *)
Definition height_partitioning_DAG_trng (levelNo : nat) (levelPtr : list nat) (originalHeight : nat) (innerParts minLevelDist divRate : Z)
    (p2l : list nat) : res (nat * (list nat * list nat)) :=
  last <- last_wide levelPtr levelNo ;;
  if (Z.of_nat levelNo <=? minLevelDist)%Z then
    p2l <- wr p2l 0 0 ;; p2l <- wr p2l 1 levelNo ;; Ok (1, ([1], p2l))
  else
    accu <- for_ 0 levelNo (fun i accu => a <- rd levelPtr i ;; b <- rd levelPtr (S i) ;; wr accu i (b - a)) (repeat 0 levelNo) ;;
    let nthreads := if (1 <? innerParts)%Z then Z.to_nat innerParts else 6 in
    p2l <- wr p2l 0 0 ;;
    '(cnt, sizes, p2l) <-
      (if ((0 <? minLevelDist) && (minLevelDist <? Z.of_nat levelNo))%Z then
         p2l <- wr p2l 1 (Z.to_nat minLevelDist) ;;
         w <- rdZ accu (minLevelDist - 1) ;;
         Ok (1, [inner_size (w / 2) nthreads], p2l)
       else Ok (0, [], p2l)) ;;
    '(_, cnt, sizes, p2l) <- while_ (S (length p2l))
      (fun '(tmp, cnt, sizes, p2l) => Ok (tmp <? Z.of_nat last)%Z)
      (fun '(tmp, cnt, sizes, p2l) =>
         w <- rdZ accu (tmp - 1) ;;
         p2l <- wr p2l (S cnt) (Z.to_nat tmp) ;;
         Ok ((tmp + divRate)%Z, S cnt, sizes ++ [inner_size w nthreads], p2l))
      ((minLevelDist + divRate)%Z, cnt, sizes, p2l) ;;
    p2l <- wr p2l (S cnt) (S originalHeight) ;;
    Ok (S cnt, (sizes ++ [1], p2l)).

(** lbc_utils.cpp 37-73 dfs_CSC_CC with pinv = NULL.  The array xi holds the recursion stack from
    below and the finished nodes from above, pstack is parallel to the stack.  Here they are two
    lists: the stack (top first, with the paused position; [None] is a cell of pstack that was not
    written for this node) and the finished nodes (xi[top..n) in order).  If the two regions of xi
    would meet, the model stops with an error. *)
Definition dfs_step (n : nat) (Gp Gi : list nat) (s : list (nat * option nat) * list nat * list Z * list nat)
  : res (list (nat * option nat) * list nat * list Z * list nat) :=
  let '(stk, out, marked, clash) := s in
  match stk with
  | [] => Ok s
  | (j, p) :: rest =>
      m <- rd marked j ;;
      '(marked, p) <- (if (m =? 0)%Z then marked <- wr marked j 1%Z ;; g <- rd Gp j ;; Ok (marked, Some g) else Ok (marked, p)) ;;
      m <- rd marked j ;;
      let clash := if (m =? -1)%Z then clash ++ [j] else clash in
      p2 <- rd Gp (S j) ;;
      p0 <- match p with Some p => Ok p | None => Err Uninit end ;;
      '(clash, found) <- forb_ p0 p2 (fun q '(clash, _) =>
         i <- rd Gi q ;; mi <- rd marked i ;;
         let clash := if (mi =? -1)%Z then clash ++ [i] else clash in
         if (mi =? 0)%Z then Ok (true, (clash, Some (q, i))) else Ok (false, (clash, None))) (clash, None) ;;
      match found with
      | Some (q, i) =>
          if S (length rest) + length out <? n then Ok ((i, None) :: (j, Some q) :: rest, out, marked, clash) else Err OOB
      | None =>
          if length rest + length out <? n then Ok (rest, j :: out, marked, clash) else Err OOB
      end
  end.

Definition dfs_CSC_CC (n j : nat) (Gp Gi : list nat) (marked : list Z) (clash : list nat) : res (list nat * list Z * list nat) :=
  '(_, out, marked, clash) <- while_ (S (S (2 * n)))
    (fun '(stk, _, _, _) => Ok (negb (length stk =? 0)))
    (dfs_step n Gp Gi)
    ([(j, None)], [], marked, clash) ;;
  Ok (out, marked, clash).

(** lbc_utils.cpp 14-34 make_unique: keep the first node of every part; the smallest part ([None] is INT32_MAX) *)
Definition make_unique (node2Par : list (option nat)) (l : list nat) (ws : list bool) : res (option nat * (list nat * list bool)) :=
  '(mn, l', ws) <- foreach l (fun x '(mn, l', ws) =>
    t <- rd node2Par x ;;
    match t with
    | None => Err OOB
    | Some t =>
        b <- rd ws t ;;
        if b : bool then Ok (mn, l', ws)
        else ws <- wr ws t true ;; Ok (match mn with None => Some t | Some m => Some (if t <? m then t else m) end, l' ++ [x], ws)
    end) (None, [], ws) ;;
  ws <- foreach l' (fun x ws => t <- rd node2Par x ;; match t with None => Err OOB | Some t => wr ws t false end) ws ;;
  Ok (mn, (l', ws)).

(** sparse_utilities.cpp 591-618 modified_BFS_CSC.  State: inDegree, visited, the lists *)
Definition bfs_pop (Lp Li : list nat) (n2p : list (option nat)) (s : list nat * list Z * list bool * list (list nat))
  : res (list nat * list Z * list bool * list (list nat)) :=
  let '(queue, deg, vis, lists) := s in
  match queue with
  | [] => Ok s
  | x :: queue =>
      vis <- wr vis x true ;;
      c <- rd n2p x ;;
      match c with
      | None => Err OOB
      | Some c =>
          l <- rd lists c ;; lists <- wr lists c (l ++ [x]) ;;
          a <- rd Lp x ;; b <- rd Lp (S x) ;;
          '(queue, deg) <- for_ a b (fun r '(queue, deg) =>
             cn <- rd Li r ;; d <- rd deg cn ;; deg <- wr deg cn (d - 1)%Z ;;
             if (d - 1 =? 1)%Z then v <- rd vis cn ;; Ok (if v : bool then queue else queue ++ [cn], deg) else Ok (queue, deg)) (queue, deg) ;;
          Ok (queue, deg, vis, lists)
      end
  end.

Definition modified_BFS_CSC (n : nat) (Lp Li : list nat) (inDegree : list Z) (visited : list bool) (n2p : list (option nat))
    (levelPtr levelSet : list nat) (bfsLevel : nat) (lists : list (list nat)) : res (list Z * list bool * list (list nat)) :=
  a <- rd levelPtr bfsLevel ;; b <- rd levelPtr (S bfsLevel) ;;
  for_ a b (fun ii '(deg, vis, lists) =>
    cur <- rd levelSet ii ;;
    '(_, deg, vis, lists) <- while_ (S n) (fun '(queue, _, _, _) => Ok (negb (length queue =? 0))) (bfs_pop Lp Li n2p) ([cur], deg, vis, lists) ;;
    Ok (deg, vis, lists)) (inDegree, visited, lists).

Section LBC.
Context {T : Type}.
Variables (zero : T) (add : T -> T -> T) (ltb : T -> T -> bool) (int_max : T).
Variable sortp : list (T * list nat) -> list (T * list nat).

(** lbc_csc_dag.cpp 475-486, 548-560, 583-588: set a mark on all nodes of the levels [a..b) *)
Definition mark_levels {A} (levelPtr levelSet : list nat) (a b : nat) (x : A) (m : list A) : res (list A) :=
  for_ a b (fun ii m =>
    p <- rd levelPtr ii ;; q <- rd levelPtr (S ii) ;;
    for_ p q (fun j m => v <- rd levelSet j ;; wr m v x) m) m.

(** lbc_csc_dag.cpp 504-515: renumber the parts met to the smallest of them *)
Definition alias_parts (n : nat) (n2p : list (option nat)) (l : list nat) (mn : nat) : res (list (option nat)) :=
  foreach l (fun x n2p =>
    t <- rd n2p x ;;
    match t with
    | None => Err OOB
    | Some t => if t =? mn then Ok n2p else
        for_ 0 n (fun i n2p => u <- rd n2p i ;;
          match u with Some u => if u =? t then wr n2p i (Some mn) else Ok n2p | None => Ok n2p end) n2p
    end) n2p.

(** lbc_csc_dag.cpp 518-529 and 531-541: number the found nodes, add up the cost, mark all but the first level with -1 *)
Definition number_nodes (node2Level : list nat) (nodeCost : list T) (dfsLevel c : nat) (nodes : list nat)
    (n2p : list (option nat)) (outCost : list T) (marked : list Z) : res (list (option nat) * list T * list Z) :=
  foreach nodes (fun v '(n2p, outCost, marked) =>
    n2p <- wr n2p v (Some c) ;;
    o <- rd outCost c ;; x <- rd nodeCost v ;; outCost <- wr outCost c (add o x) ;;
    lv <- rd node2Level v ;;
    marked <- (if lv =? dfsLevel then Ok marked else wr marked v (-1)%Z) ;;
    Ok (n2p, outCost, marked)) (n2p, outCost, marked).

(** lbc_csc_dag.cpp 489-546: components of a slab.  State: n2p, outCost, marked, needAliased, isUniq, cc *)
Definition slab_components (n : nat) (lC lR levelPtr levelSet node2Level : list nat) (nodeCost : list T) (dfsLevel : nat)
    (n2p : list (option nat)) (outCost : list T) (marked : list Z) : res (list (option nat) * list T * list Z * nat) :=
  a <- rd levelPtr dfsLevel ;; b <- rd levelPtr (S dfsLevel) ;;
  '(n2p, outCost, marked, _, _, cc) <- for_ a b (fun k st =>
    let '(n2p, outCost, marked, aliased, uniq_, cc) := st in
    leaf <- rd levelSet k ;;
    m <- rd marked leaf ;;
    if (m =? 0)%Z then
      '(out, marked, aliased) <- dfs_CSC_CC n leaf lC lR marked aliased ;;
      '(mn, (aliased, uniq_)) <- make_unique n2p aliased uniq_ ;;
      match mn with
      | Some mn =>
          n2p <- alias_parts n n2p aliased mn ;;
          '(n2p, outCost, marked) <- number_nodes node2Level nodeCost dfsLevel mn out n2p outCost marked ;;
          Ok (n2p, outCost, marked, [], uniq_, cc)
      | None =>
          '(n2p, outCost, marked) <- number_nodes node2Level nodeCost dfsLevel cc out n2p outCost marked ;;
          Ok (n2p, outCost, marked, aliased, uniq_, S cc)
      end
    else Ok st) (n2p, outCost, marked, [], repeat false n, 0) ;;
  Ok (n2p, outCost, marked, cc).

Record lstate := mkL { l_n2p : list (option nat); l_out : list T; l_new : list T; l_mark : list Z; l_vis : list bool; l_deg : list Z;
  l_levelPtr : list nat; l_partPtr : list nat; l_nodePtr : list nat; l_parts : nat }.

(** lbc_csc_dag.cpp 620-636: append the parts to the output *)
Definition emit_parts (parts : list (list nat)) (n2p : list (option nat)) (partPtr nodePtr : list nat) (cur : nat)
  : res (list (option nat) * list nat * list nat * nat) :=
  foreach parts (fun p '(n2p, partPtr, nodePtr, cur) =>
    base <- rd partPtr cur ;;
    '(n2p, nodePtr, k) <- foreach p (fun v '(n2p, nodePtr, k) =>
       nodePtr <- wr nodePtr (base + k) v ;; n2p <- wr n2p v (Some cur) ;; Ok (n2p, nodePtr, S k)) (n2p, nodePtr, 0) ;;
    partPtr <- wr partPtr (S cur) (base + k) ;;
    Ok (n2p, partPtr, nodePtr, S cur)) (n2p, partPtr, nodePtr, cur).

(** lbc_csc_dag.cpp 468-650: one slab.  The cost threshold (590-591) is computed but not used; of it only the
    division by innerParts is kept. *)
Definition lbc_slab (n : nat) (lC lR levelPtr levelSet node2Level : list nat) (nodeCost : list T) (originalHeight : nat) (innerParts : Z)
    (innerPartsSize p2l : list nat) (l : nat) (s : lstate) : res lstate :=
  dfsLevel <- rd p2l l ;;
  ubLevel <- rd p2l (S l) ;;
  let lb := dfsLevel - 1 in
  marked <- mark_levels levelPtr levelSet lb dfsLevel 1%Z (l_mark s) ;;
  marked <- mark_levels levelPtr levelSet ubLevel originalHeight 1%Z marked ;;
  '(n2p, outCost, marked, cc) <- slab_components n lC lR levelPtr levelSet node2Level nodeCost dfsLevel (l_n2p s) (l_out s) marked ;;
  marked <- mark_levels levelPtr levelSet lb dfsLevel 0%Z marked ;;
  marked <- mark_levels levelPtr levelSet ubLevel originalHeight 0%Z marked ;;
  visited <- mark_levels levelPtr levelSet ubLevel originalHeight true (l_vis s) ;;
  '(deg, visited, lists) <- modified_BFS_CSC n lC lR (l_deg s) visited n2p levelPtr levelSet dfsLevel (repeat [] cc) ;;
  visited <- mark_levels levelPtr levelSet ubLevel originalHeight false visited ;;
  _ <- (if (innerParts =? 0)%Z then Err DivZero else Ok tt) ;;
  bins <- rd innerPartsSize l ;;
  '(parts, newOutCost) <- (if bins <? length lists
     then worst_fit_bin_pack add ltb int_max sortp lists outCost (repeat [] bins) (l_new s) bins
     else Ok (lists, l_new s)) ;;
  fl <- rd (l_levelPtr s) l ;;
  finalLevel <- wr (l_levelPtr s) (S l) (fl + length parts) ;;
  '(n2p, partPtr, nodePtr, cur) <- emit_parts parts n2p (l_partPtr s) (l_nodePtr s) (l_parts s) ;;
  Ok (mkL n2p outCost newOutCost marked visited deg finalLevel partPtr nodePtr cur).

(** lbc_csc_dag.cpp 401-685 get_coarse_Level_set_DAG_CSC03.  Result: finaLevelNo, finaLevelPtr, finalPartPtr, finalNodePtr;
    partNo is never written by the code.  Cells of the arrays that the code leaves uninitialised are 0 here; the theorem shows
    that the cells it names are written.  The checks at the end (654-670) only assert.  levelNo is -1 if there is a cycle or a path through all nodes; then
    new int[-1] throws. *)
Definition get_coarse_Level_set_DAG_CSC03 (n : nat) (lC lR : list nat) (innerParts minLevelDist divRate : Z) (nodeCost : list T)
  : res (nat * (list nat * list nat * list nat)) :=
  '(levelNo, (levelPtr, levelSet)) <- build_levelSet_CSC_alloc n lC lR ;;
  if (levelNo <? 0)%Z then Err Throw else
  let levelNo := Z.to_nat levelNo in
  node2Level <- for_ 0 levelNo (fun i n2l => a <- rd levelPtr i ;; b <- rd levelPtr (S i) ;;
    for_ a b (fun j n2l => v <- rd levelSet j ;; wr n2l v i) n2l) (repeat 0 n) ;;
  deg <- for_ 0 n (fun s deg => a <- rd lC s ;; b <- rd lC (S s) ;;
    for_ a b (fun r deg => v <- rd lR r ;; d <- rd deg v ;; wr deg v (d + 1)%Z) deg) (repeat 0%Z n) ;;
  '(k, (sizes, p2l)) <- height_partitioning_DAG_trng levelNo levelPtr levelNo innerParts minLevelDist divRate (repeat 0 (levelNo + 1)) ;;
  finalLevel <- wr (repeat 0 (n + 1)) 0 0 ;;
  s <- for_ 0 k (lbc_slab n lC lR levelPtr levelSet node2Level nodeCost levelNo innerParts sizes p2l)
    (mkL (repeat None n) (repeat zero n) (repeat zero n) (repeat 0%Z n) (repeat false n) deg finalLevel (repeat 0 n) (repeat 0 n) 0) ;;
  if k =? 0 then Err DivZero else
  Ok (k, (l_levelPtr s, l_partPtr s, l_nodePtr s)).

End LBC.
