(** Model of the blocked variants: build_levelSet_BCSC (utils/sparse_inspector.cpp 125-182), dfs_BCSC_CC
    (src/lbc_utils.cpp 76-119), modified_BFS_BCSC (utils/sparse_utilities.cpp 556-588) and
    getCoarseLevelSet_DAG_BCSC02 (src/lbc_blocked.cpp 15-297).

    A block is a range of consecutive columns [blk2col[s], blk2col[s+1]); its rows are lR[Li_ptr[blk2col[s]] ..
    Li_ptr[blk2col[s+1]]), its own columns first.  The argument lC / Lp / Gp is never used by the code and is left out. *)
From Verif Require Import Base Lib M_LevelSet M_LBC M_LBCTree.

Section Blocks.
Variables (b2c c2b Lip Li : list nat).

(** the block of the row at position [r]: col2blk[lR[r]] *)
Definition brow (r : nat) : res nat := i <- rd Li r ;; rd c2b i.

(** sparse_inspector.cpp 139-147 and lbc_blocked.cpp 81-89: in-degrees, the block itself counted once (its last own row).
    The widths are positive wherever the theorems speak, so [- 1] does not wrap. *)
Definition bcsc_degree (nb : nat) : res (list Z) :=
  for_ 0 nb (fun s deg =>
    cur <- rd b2c s ;; nxt <- rd b2c (S s) ;; a <- rd Lip cur ;; b <- rd Lip nxt ;;
    for_ (a + (nxt - cur) - 1) b (fun r deg => v <- brow r ;; d <- rd deg v ;; wr deg v (d + 1)%Z) deg) (repeat 0%Z nb).

(** 163-164: while (inDegree[begin] == 1) begin++; without a test for the end of the array.  [behind] is what lies in memory
    behind the array: nothing that may be read ([]) for the allocation the code makes. *)
Definition advance_begin_b (behind deg : list Z) (b : nat) : res nat :=
  while_ (S (length deg + length behind)) (fun b => d <- rd (deg ++ behind) b ;; Ok (d =? 1)%Z) (fun b => Ok (S b)) b.

(** 168-176: remove the edges of the new level *)
Definition remove_edges_b (lset : list nat) (lo hi : nat) (deg : list Z) : res (list Z) :=
  for_ lo hi (fun l deg =>
    cc <- rd lset l ;;
    cur <- rd b2c cc ;; nxt <- rd b2c (S cc) ;; a <- rd Lip cur ;; b <- rd Lip nxt ;;
    for_ (a + (nxt - cur)) b (fun r deg => v <- brow r ;; d <- rd deg v ;; wr deg v (d - 1)%Z) deg) deg.

(** 148-177: one round of the outer loop; there is no [return -1] here *)
Definition ls_round_b (behind : list Z) (nb : nat) (s : ls_state) : res ls_state :=
  '(vis, lset, n2l, col) <- scan_level (ls_begin s) (ls_end1 s) (ls_cur s) (ls_deg s) (ls_vis s, ls_set s, ls_n2l s, ls_col s) ;;
  let cur := S (ls_cur s) in
  ptr <- wr (ls_ptr s) cur col ;;
  b <- advance_begin_b behind (ls_deg s) (ls_begin s) ;;
  e1 <- retreat_end nb (ls_deg s) b (ls_end1 s) ;;
  lo <- rd ptr (cur - 1) ;;
  hi <- rd ptr cur ;;
  deg <- remove_edges_b lset lo hi (ls_deg s) ;;
  Ok (mkLS b e1 cur col deg vis ptr lset n2l false).

(** 125-182.  Every round but the last places a node if there is no cycle, so the fuel is enough then. *)
Definition build_levelSet_BCSC (behind : list Z) (nb : nat) : res (nat * (list nat * list nat)) :=
  deg <- bcsc_degree nb ;;
  s <- while_ (S nb) (fun s => Ok (ls_begin s <? ls_end1 s)) (ls_round_b behind nb)
         (mkLS 0 nb 0 0 deg (repeat false nb) (repeat 0 (nb + 1)) (repeat 0 nb) (repeat 0 nb) false) ;;
  Ok (ls_cur s, (ls_ptr s, ls_set s)).

(** lbc_utils.cpp 83-117.  The stack holds columns, the finished list and the marks are about blocks; layout of the two
    stacks as in dfs_step (M_LBC.v).  supWdth is computed but not used; its two reads (105) stay. *)
Definition dfs_step_b (nb : nat) (s : list (nat * option nat) * list nat * list Z * list nat)
  : res (list (nat * option nat) * list nat * list Z * list nat) :=
  let '(stk, out, marked, clash) := s in
  match stk with
  | [] => Ok s
  | (j, p) :: rest =>
      jb <- rd c2b j ;;
      m <- rd marked jb ;;
      '(marked, p) <- (if (m =? 0)%Z then marked <- wr marked jb 1%Z ;; g <- rd Lip j ;; Ok (marked, Some g) else Ok (marked, p)) ;;
      m <- rd marked jb ;;
      let clash := if (m =? -1)%Z then clash ++ [jb] else clash in
      nxt <- rd b2c (S jb) ;; _ <- rd b2c jb ;;
      p2 <- rd Lip nxt ;;
      p0 <- match p with Some p => Ok p | None => Err Uninit end ;;
      '(clash, found) <- forb_ p0 p2 (fun q '(clash, _) =>
         i <- rd Li q ;; t <- rd c2b i ;; _ <- rd b2c (S t) ;; _ <- rd b2c t ;; mi <- rd marked t ;;
         let clash := if (mi =? -1)%Z then clash ++ [t] else clash in
         if (mi =? 0)%Z then Ok (true, (clash, Some (q, i))) else Ok (false, (clash, None))) (clash, None) ;;
      match found with
      | Some (q, i) =>
          if S (length rest) + length out <? nb then Ok ((i, None) :: (j, Some q) :: rest, out, marked, clash) else Err OOB
      | None =>
          if length rest + length out <? nb then Ok (rest, jb :: out, marked, clash) else Err OOB
      end
  end.

(** 76-119 *)
Definition dfs_BCSC_CC (nb j : nat) (marked : list Z) (clash : list nat) : res (list nat * list Z * list nat) :=
  c <- rd b2c j ;;
  '(_, out, marked, clash) <- while_ (S (S (2 * nb)))
    (fun '(stk, _, _, _) => Ok (negb (length stk =? 0)))
    (dfs_step_b nb)
    ([(c, None)], [], marked, clash) ;;
  Ok (out, marked, clash).

(** sparse_utilities.cpp 568-584 *)
Definition bfs_pop_b (n2p : list (option nat)) (s : list nat * list Z * list bool * list (list nat))
  : res (list nat * list Z * list bool * list (list nat)) :=
  let '(queue, deg, vis, lists) := s in
  match queue with
  | [] => Ok s
  | x :: queue =>
      vis <- wr vis x true ;;
      c <- rd n2p x ;;
      match c with
      | None => Err OOB
      | Some c =>
          l <- rd lists c ;; lists <- wr lists c (l ++ [x]) ;;
          cur <- rd b2c x ;; nxt <- rd b2c (S x) ;; a <- rd Lip cur ;; b <- rd Lip nxt ;;
          '(queue, deg) <- for_ (a + (nxt - cur)) b (fun r '(queue, deg) =>
             cn <- brow r ;; d <- rd deg cn ;; deg <- wr deg cn (d - 1)%Z ;;
             if (d - 1 =? 1)%Z then v <- rd vis cn ;; Ok (if v : bool then queue else queue ++ [cn], deg) else Ok (queue, deg)) (queue, deg) ;;
          Ok (queue, deg, vis, lists)
      end
  end.

(** 556-588 *)
Definition modified_BFS_BCSC (nb : nat) (inDegree : list Z) (visited : list bool) (n2p : list (option nat))
    (levelPtr levelSet : list nat) (bfsLevel : nat) (lists : list (list nat)) : res (list Z * list bool * list (list nat)) :=
  a <- rd levelPtr bfsLevel ;; b <- rd levelPtr (S bfsLevel) ;;
  for_ a b (fun ii '(deg, vis, lists) =>
    cur <- rd levelSet ii ;;
    '(_, deg, vis, lists) <- while_ (S nb) (fun '(queue, _, _, _) => Ok (negb (length queue =? 0))) (bfs_pop_b n2p) ([cur], deg, vis, lists) ;;
    Ok (deg, vis, lists)) (inDegree, visited, lists).

Section LBC.
Context {T : Type}.
Variables (zero : T) (add : T -> T -> T) (ltb : T -> T -> bool) (int_max : T).
Variable sortp : list (T * list nat) -> list (T * list nat).

(** lbc_blocked.cpp 127-135: renumber the parts of all nodes met but the first ("the first is min") *)
Definition alias_parts_b (nb : nat) (n2p : list (option nat)) (l : list nat) (mn : nat) : res (list (option nat)) :=
  foreach (tl l) (fun x n2p =>
    t <- rd n2p x ;;
    match t with
    | None => Err OOB
    | Some t => for_ 0 nb (fun i n2p => u <- rd n2p i ;;
          match u with Some u => if u =? t then wr n2p i (Some mn) else Ok n2p | None => Ok n2p end) n2p
    end) n2p.

(** 108-170: components of a slab.  136 lowers the number of components by the number of parts met minus one (int; the
    result is not negative as long as the parts met are different ones). *)
Definition slab_components_b (nb : nat) (levelPtr levelSet node2Level : list nat) (nodeCost : list T) (dfsLevel : nat)
    (n2p : list (option nat)) (outCost : list T) (marked : list Z) : res (list (option nat) * list T * list Z * nat) :=
  a <- rd levelPtr dfsLevel ;; b <- rd levelPtr (S dfsLevel) ;;
  '(n2p, outCost, marked, _, _, cc) <- for_ a b (fun k st =>
    let '(n2p, outCost, marked, aliased, uniq_, cc) := st in
    leaf <- rd levelSet k ;;
    m <- rd marked leaf ;;
    if (m =? 0)%Z then
      '(out, marked, aliased) <- dfs_BCSC_CC nb leaf marked aliased ;;
      '(mn, (aliased, uniq_)) <- make_unique n2p aliased uniq_ ;;
      match mn with
      | Some mn =>
          n2p <- alias_parts_b nb n2p aliased mn ;;
          '(n2p, outCost, marked) <- number_nodes add node2Level nodeCost dfsLevel mn out n2p outCost marked ;;
          Ok (n2p, outCost, marked, [], uniq_, cc - (length aliased - 1))
      | None =>
          '(n2p, outCost, marked) <- number_nodes add node2Level nodeCost dfsLevel cc out n2p outCost marked ;;
          Ok (n2p, outCost, marked, aliased, uniq_, S cc)
      end
    else Ok st) (n2p, outCost, marked, [], repeat false nb, 0) ;;
  Ok (n2p, outCost, marked, cc).

(** 101-266: one slab.  Of the cost threshold (205-206, not used) only the division by innerParts is kept; resize (208)
    throws for a negative innerParts.  The number of bins is innerPartsSize[l], the list of bins has innerParts cells. *)
Definition bcsc_slab (nb : nat) (levelPtr levelSet node2Level : list nat) (nodeCost : list T) (originalHeight : nat) (innerParts : Z)
    (innerPartsSize p2l : list nat) (l : nat) (s : @lstate T) : res (@lstate T) :=
  dfsLevel <- rd p2l l ;;
  ubLevel <- rd p2l (S l) ;;
  let lb := dfsLevel - 1 in
  marked <- mark_levels levelPtr levelSet lb dfsLevel 1%Z (l_mark s) ;;
  marked <- mark_levels levelPtr levelSet ubLevel originalHeight 1%Z marked ;;
  '(n2p, outCost, marked, cc) <- slab_components_b nb levelPtr levelSet node2Level nodeCost dfsLevel (l_n2p s) (l_out s) marked ;;
  marked <- mark_levels levelPtr levelSet lb dfsLevel 0%Z marked ;;
  marked <- mark_levels levelPtr levelSet ubLevel originalHeight 0%Z marked ;;
  visited <- mark_levels levelPtr levelSet ubLevel originalHeight true (l_vis s) ;;
  '(deg, visited, lists) <- modified_BFS_BCSC nb (l_deg s) visited n2p levelPtr levelSet dfsLevel (repeat [] cc) ;;
  visited <- mark_levels levelPtr levelSet ubLevel originalHeight false visited ;;
  _ <- (if (innerParts =? 0)%Z then Err DivZero else if (innerParts <? 0)%Z then Err Throw else Ok tt) ;;
  '(parts, newOutCost) <- (if Z.to_nat innerParts <? length lists
     then bins <- rd innerPartsSize l ;;
          '(merged, new) <- worst_fit_bin_pack add ltb int_max sortp lists outCost (repeat [] (Z.to_nat innerParts)) (l_new s) bins ;;
          if bins <=? length merged then Ok (firstn bins merged, new) else Err OOB
     else Ok (lists, l_new s)) ;;
  fl <- rd (l_levelPtr s) l ;;
  finalLevel <- wr (l_levelPtr s) (S l) (fl + length parts) ;;
  '(n2p, partPtr, nodePtr, cur) <- emit_parts parts n2p (l_partPtr s) (l_nodePtr s) (l_parts s) ;;
  Ok (mkL n2p outCost newOutCost marked visited deg finalLevel partPtr nodePtr cur).

(** 15-297.  partNo is never written; cells that the code leaves uninitialised are 0 here; the checks at the end (269-284)
    only assert.  Result: finaLevelNo, finaLevelPtr, finalPartPtr, finalNodePtr.  [behind]: see advance_begin_b. *)
Definition getCoarseLevelSet_DAG_BCSC02 (behind : list Z) (nb : nat) (innerParts minLevelDist divRate : Z) (nodeCost : list T)
  : res (nat * (list nat * list nat * list nat)) :=
  finalLevel <- wr (repeat 0 (nb + 1)) 0 0 ;;
  '(levelNo, (levelPtr, levelSet)) <- build_levelSet_BCSC behind nb ;;
  node2Level <- for_ 0 levelNo (fun i n2l => a <- rd levelPtr i ;; b <- rd levelPtr (S i) ;;
    for_ a b (fun j n2l => v <- rd levelSet j ;; wr n2l v i) n2l) (repeat 0 nb) ;;
  deg <- bcsc_degree nb ;;
  '(k, (sizes, p2l)) <- height_partitioning levelNo levelPtr innerParts minLevelDist divRate (repeat 0 (levelNo + 1)) ;;
  s <- for_ 0 k (bcsc_slab nb levelPtr levelSet node2Level nodeCost levelNo innerParts sizes p2l)
    (mkL (repeat None nb) (repeat zero nb) (repeat zero nb) (repeat 0%Z nb) (repeat false nb) deg finalLevel (repeat 0 nb) (repeat 0 nb) 0) ;;
  Ok (k, (l_levelPtr s, l_partPtr s, l_nodePtr s)).
End LBC.
End Blocks.
