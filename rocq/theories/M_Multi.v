(** Models of level_set_multi_graphs (utils/sparse_inspector.cpp 185-269), merge_graph and
    merge_DAGs_with_partial_order (utils/sparse_utilities.cpp 767-932) and
    get_coarse_levelSet_DAG_CSC (src/lbc_csc.cpp 15-296). *)
From Verif Require Import Base Lib M_LBC.

(** * Level sets of several copies of a graph *)

(** 192: memset fills bytes, so every int becomes 0x01010101 *)
Definition memset_one : Z := 16843009.

(** 188, 192, 196-202: in-degrees without the first entry of each column.  For n_kern = 0 the size of
    memset is negative. *)
Definition multi_degrees (n K : nat) (Lp Li : list nat) : res (list Z) :=
  if (K =? 0) && (0 <? n) then Err OOB else
  for_ 0 n (fun i deg => a <- rd Lp i ;; b <- rd Lp (S i) ;;
    for_ (S a) b (fun p deg => for_ 0 K (fun q deg => v <- rd Li p ;; d <- rd deg (v + n * q) ;; wr deg (v + n * q) (d + 1)%Z) deg) deg)
    (repeat 0%Z n ++ repeat memset_one (n * (K - 1))).

(** queue, visited, inqueue, next_n *)
Definition mq : Type := list nat * list Z * list bool * nat.

(** 233-243: one entry *)
Definition multi_entry (n : nat) (Li : list nat) (deg : list Z) (kern p : nat) (s : mq) : res mq :=
  let '(queue, vis, inq, next) := s in
  v <- rd Li p ;;
  let o := v + n * kern in
  x <- rd vis o ;; d <- rd deg o ;;
  ready <- (if (x =? d - 1)%Z then q <- rd inq o ;; Ok (negb q) else Ok false) ;;
  if ready : bool then inq <- wr inq o true ;; Ok (queue ++ [o], vis, inq, S next)
  else vis <- wr vis o (x + 1)%Z ;; Ok (queue, vis, inq, next).

(** 221-250: one node.  front() of an empty queue is undefined. *)
Definition multi_node (n K : nat) (Lp Li : list nat) (deg : list Z) (s : mq * list nat * nat) : res (mq * list nat * nat) :=
  let '((queue, vis, inq, next), levels, lev_num) := s in
  match queue with
  | [] => Err OOB
  | index :: queue =>
      x <- rd vis index ;; vis <- wr vis index (x + 1)%Z ;; inq <- wr inq index false ;;
      levels <- wr levels lev_num index ;;
      let kern := index / n in
      let index := index - kern * n in
      a <- rd Lp index ;; b <- rd Lp (S index) ;;
      '(queue, vis, inq, next) <- for_ (S a) b (multi_entry n Li deg kern) (queue, vis, inq, next) ;;
      if S kern <? K then
        let o := index + n * (S kern) in
        inq <- wr inq o true ;; Ok ((queue ++ [o], vis, inq, S next), levels, S lev_num)
      else Ok ((queue, vis, inq, next), levels, S lev_num)
  end.

(** 185-269.  ptr_num is not used.  A level is never empty, so there are at most n * n_kern of them.
    Result: number of levels, levelptr (cut to the levels), levels. *)
Definition level_set_multi_graphs (n : nat) (Lp Li : list nat) (K : nat) : res (nat * (list nat * list nat)) :=
  deg <- multi_degrees n K Lp Li ;;
  '(queue, inq) <- for_ 0 n (fun i '(queue, inq) => d <- rd deg i ;;
     if (d =? 0)%Z then inq <- wr inq i true ;; Ok (queue ++ [i], inq) else Ok (queue, inq)) ([], repeat false (K * n)) ;;
  lp <- wr (repeat 0 (K * n + 1)) 0 0 ;;
  '(_, _, _, levels, _, cur, lp, _) <- while_ (S (K * n))
    (fun '(queue, vis, inq, levels, lev_num, cur, lp, cur_n) => Ok (negb (length queue =? 0)))
    (fun '(queue, vis, inq, levels, lev_num, cur, lp, cur_n) =>
       a <- rd lp cur ;; lp <- wr lp (S cur) (a + cur_n) ;;
       '((queue, vis, inq, next), levels, lev_num) <- for_ 0 cur_n (fun _ => multi_node n K Lp Li deg) ((queue, vis, inq, 0), levels, lev_num) ;;
       Ok (queue, vis, inq, levels, lev_num, S cur, lp, next))
    (queue, repeat 0%Z (K * n), inq, repeat 0 (K * n), 0, 0, lp, length queue) ;;
  Ok (cur, (firstn (S cur) lp, levels)).

(** * Merging graphs *)

(** sparse_utilities.cpp 785-799, 836-848, 898-918: append the columns of one graph, shifted by [off]; [more] are the entries
    that follow those of column [j].  [p] and [i] are the arrays of the result, [pc] and [ic] the counters. *)
Definition merge_columns (n off : nat) (Gp Gi : list nat) (more : nat -> res (list nat)) (st : list nat * list nat * nat * nat)
  : res (list nat * list nat * nat * nat) :=
  for_ 0 n (fun j '(nGp, nGi, pc, ic) =>
    a <- rd Gp j ;; b <- rd Gp (S j) ;;
    extra <- more j ;;
    last <- rd nGp (pc - 1) ;; nGp <- wr nGp pc (last + ((b - a) + length extra)) ;;
    '(nGi, ic) <- for_ a b (fun p '(nGi, ic) => x <- rd Gi p ;; nGi <- wr nGi ic (x + off) ;; Ok (nGi, S ic)) (nGi, ic) ;;
    '(nGi, ic) <- foreach extra (fun x '(nGi, ic) => nGi <- wr nGi ic x ;; Ok (nGi, S ic)) (nGi, ic) ;;
    Ok (nGp, nGi, S pc, ic)) st.

(** 767-812 and 815-860: merge_graph; the arrays have ngraphs * n + 1 and nnz cells.  Gps[ngraphs-1] is read
    for no graph at all. *)
Definition merge_graph (n : nat) (Gs : list (list nat * list nat)) : res (list nat * list nat) :=
  nnz <- foreach Gs (fun G nnz => e <- rd (fst G) n ;; Ok (nnz + e)) 0 ;;
  let K := length Gs in
  if K =? 0 then Err OOB else
  let nnz := nnz + (K - 1) * n in
  st <- for_ 0 (K - 1) (fun i st => G <- rd Gs i ;;
     merge_columns n (i * n) (fst G) (snd G) (fun j => Ok [j + (i + 1) * n]) st)
    (repeat 0 (K * n + 1), repeat 0 nnz, 1, 0) ;;
  G <- rd Gs (K - 1) ;;
  '(nGp, nGi, _, _) <- merge_columns n ((K - 1) * n) (fst G) (snd G) (fun _ => Ok []) st ;;
  Ok (nGp, nGi).

(** 909-913: column [j] of a dependence graph, shifted *)
Definition dep_column (DGp DGi : list nat) (off j : nat) : res (list nat) :=
  a <- rd DGp j ;; b <- rd DGp (S j) ;;
  for_ a b (fun p l => x <- rd DGi p ;; Ok (l ++ [x + off])) [].

(** 867-932: merge_DAGs_with_partial_order; [nd] is not used.  879 adds (ngraphs-1) * n cells that are not filled. *)
Definition merge_DAGs_with_partial_order (n : nat) (Gs Ds : list (list nat * list nat)) : res (nat * (list nat * list nat)) :=
  let K := length Gs in
  nnz <- foreach Gs (fun G nnz => e <- rd (fst G) n ;; Ok (nnz + e)) 0 ;;
  nnz <- for_ 0 (K - 1) (fun i nnz => D <- rd Ds i ;; e <- rd (fst D) n ;; Ok (nnz + e)) nnz ;;
  if K =? 0 then Err OOB else
  let nnz := nnz + (K - 1) * n in
  st <- for_ 0 (K - 1) (fun i st => G <- rd Gs i ;; D <- rd Ds i ;;
     merge_columns n (i * n) (fst G) (snd G) (dep_column (fst D) (snd D) ((i + 1) * n)) st)
    (repeat 0 (K * n + 1), repeat 0 nnz, 1, 0) ;;
  G <- rd Gs (K - 1) ;;
  '(nGp, nGi, _, _) <- merge_columns n ((K - 1) * n) (fst G) (snd G) (fun _ => Ok []) st ;;
  Ok (nnz, (nGp, nGi)).

(** * get_coarse_levelSet_DAG_CSC (src/lbc_csc.cpp 15-296) *)

Section LBC.
Context {T : Type}.
Variables (zero : T) (add : T -> T -> T) (ltb : T -> T -> bool) (int_max : T).
Variable sortp : list (T * list nat) -> list (T * list nat).

(** 90-258: one slab.  It differs from lbc_slab (M_LBC.v) in the marks that are reset (170-174: the level below
    the slab, level 0 for the first one) and in [bin_pack]. *)
Definition csc_slab (bin_pack : bool) (n : nat) (lC lR levelPtr levelSet node2Level : list nat) (nodeCost : list T) (originalHeight : nat) (innerParts : Z)
    (innerPartsSize p2l : list nat) (l : nat) (s : @lstate T) : res (@lstate T) :=
  dfsLevel <- rd p2l l ;;
  ubLevel <- rd p2l (S l) ;;
  let lb := dfsLevel - 1 in
  marked <- mark_levels levelPtr levelSet lb dfsLevel 1%Z (l_mark s) ;;
  marked <- mark_levels levelPtr levelSet ubLevel originalHeight 1%Z marked ;;
  '(n2p, outCost, marked, cc) <- slab_components add n lC lR levelPtr levelSet node2Level nodeCost dfsLevel (l_n2p s) (l_out s) marked ;;
  marked <- mark_levels levelPtr levelSet lb (S lb) 0%Z marked ;;
  marked <- mark_levels levelPtr levelSet ubLevel originalHeight 0%Z marked ;;
  visited <- mark_levels levelPtr levelSet ubLevel originalHeight true (l_vis s) ;;
  '(deg, visited, lists) <- modified_BFS_CSC n lC lR (l_deg s) visited n2p levelPtr levelSet dfsLevel (repeat [] cc) ;;
  visited <- mark_levels levelPtr levelSet ubLevel originalHeight false visited ;;
  _ <- (if (innerParts =? 0)%Z then Err DivZero else Ok tt) ;;
  bins <- rd innerPartsSize l ;;
  '(parts, newOutCost) <- (if (bins <? length lists) && bin_pack
     then worst_fit_bin_pack add ltb int_max sortp lists outCost (repeat [] bins) (l_new s) bins
     else Ok (lists, l_new s)) ;;
  fl <- rd (l_levelPtr s) l ;;
  finalLevel <- wr (l_levelPtr s) (S l) (fl + length parts) ;;
  '(n2p, partPtr, nodePtr, cur) <- emit_parts parts n2p (l_partPtr s) (l_nodePtr s) (l_parts s) ;;
  Ok (mkL n2p outCost newOutCost marked visited deg finalLevel partPtr nodePtr cur).

(** 15-296.  partNo is never written.  Cells that the code leaves uninitialised are 0 here.  CHECK is not defined.
    Result: finaLevelNo, finaLevelPtr, finalPartPtr, finalNodePtr. *)
Definition get_coarse_levelSet_DAG_CSC (n : nat) (lC lR : list nat) (innerParts minLevelDist divRate : Z) (nodeCost : list T) (bin_pack : bool)
  : res (nat * (list nat * list nat * list nat)) :=
  finalLevel <- wr (repeat 0 (n + 1)) 0 0 ;;
  '(levelNo, (levelPtr, levelSet)) <- level_set_multi_graphs n lC lR 1 ;;
  node2Level <- for_ 0 levelNo (fun i n2l => a <- rd levelPtr i ;; b <- rd levelPtr (S i) ;;
    for_ a b (fun j n2l => v <- rd levelSet j ;; wr n2l v i) n2l) (repeat 0 n) ;;
  deg <- for_ 0 n (fun s deg => a <- rd lC s ;; b <- rd lC (S s) ;;
    for_ a b (fun r deg => v <- rd lR r ;; d <- rd deg v ;; wr deg v (d + 1)%Z) deg) (repeat 0%Z n) ;;
  '(k, (sizes, p2l)) <- height_partitioning_DAG_trng levelNo levelPtr levelNo innerParts minLevelDist divRate (repeat 0 (levelNo + 1)) ;;
  s <- for_ 0 k (csc_slab bin_pack n lC lR levelPtr levelSet node2Level nodeCost levelNo innerParts sizes p2l)
    (mkL (repeat None n) (repeat zero n) (repeat zero n) (repeat 0%Z n) (repeat false n) deg finalLevel (repeat 0 n) (repeat 0 n) 0) ;;
  if k =? 0 then Err DivZero else
  Ok (k, (l_levelPtr s, l_partPtr s, l_nodePtr s)).
End LBC.

(** 0 -> 1 -> 3, 0 -> 2; twice *)
Example multi_run : level_set_multi_graphs 4 [0;3;5;6;7] [0;1;2; 1;3; 2; 3] 2 = Ok (4, ([0;1;4;7;8], [0; 1;2;4; 3;5;6; 7])).
Proof. vm_compute. reflexivity. Qed.
Example merge_run : merge_graph 2 [([0;2;3], [0;1; 1]); ([0;1;2], [0; 1])] = Ok ([0;3;5;6;7], [0;1;2; 1;3; 2; 3]) /\
  merge_DAGs_with_partial_order 2 [([0;2;3], [0;1; 1]); ([0;1;2], [0; 1])] [([0;1;1], [1])] = Ok (8, ([0;3;4;5;6], [0;1;3; 1; 2; 3; 0; 0])).
Proof. split; vm_compute; reflexivity. Qed.
Example csc_run : get_coarse_levelSet_DAG_CSC 0 Nat.add Nat.ltb 100 (fun l => l) 4 [0;3;5;6;7] [0;1;2; 1;3; 2; 3] 2 1 1 [1;1;1;1] true =
  Ok (2, ([0;1;2;0;0], [0;1;4;0], [0;1;3;2])).
Proof. vm_compute. reflexivity. Qed.
