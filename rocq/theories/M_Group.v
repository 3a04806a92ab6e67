(** Model of the grouping functions of src/hdagg/hdagg.cpp: buildGroupDAG, the tree and
    chain groupings, ungroupingScheduleAndApplyOrdering, getFinalScheduleDAG.
    The `omp parallel for` loops of these functions write to different cells in different
    iterations (and reduce a sum); they are modelled sequentially. *)
From Verif Require Import Base Lib M_PostOrder M_Sched M_Mat.

(** hdagg.cpp 1241-1248: the group of each node *)
Definition group_inverse (n ngroups : nat) (group_ptr group_set : list nat) : res (list nat) :=
  for_ 0 ngroups (fun g inv =>
    a <- rd group_ptr g ;; b <- rd group_ptr (S g) ;;
    for_ a b (fun i inv => node <- rd group_set i ;; wr inv node g) inv) (repeat 0 n).

(** hdagg.cpp 1253-1262: groups of the entries of the columns of group [g], with repetition *)
Definition group_children (group_ptr group_set DAG_ptr DAG_set inv : list nat) (g : nat) : res (list nat) :=
  a <- rd group_ptr g ;; b <- rd group_ptr (S g) ;;
  for_ a b (fun k acc =>
    node <- rd group_set k ;;
    c <- rd DAG_ptr node ;; d <- rd DAG_ptr (S node) ;;
    for_ c d (fun j acc => x <- rd DAG_set j ;; h <- rd inv x ;; Ok (acc ++ [h])) acc) [].

(** hdagg.cpp 1253-1265: all groups, sorted, without repetition *)
Definition group_columns (ngroups : nat) (group_ptr group_set DAG_ptr DAG_set inv : list nat) : res (list (list nat)) :=
  for_ 0 ngroups (fun g cols =>
    l <- group_children group_ptr group_set DAG_ptr DAG_set inv g ;; Ok (cols ++ [uniq (isort l)])) [].

(** hdagg.cpp 1267-1276: into compressed column arrays.  The output vectors are resized
    and every cell that is left is written. *)
Definition pack_columns (ngroups : nat) (cols : list (list nat)) : res (list nat * list nat) :=
  let nnz := list_sum (map (@length nat) cols) in
  '(p, s, e) <- for_ 0 ngroups (fun g '(p, s, e) =>
      p' <- wr p g e ;;
      l <- rd cols g ;;
      '(s', e') <- for_ 0 (length l) (fun j '(s, e) => x <- rd l j ;; s' <- wr s e x ;; Ok (s', S e)) (s, e) ;;
      Ok (p', s', e')) (repeat 0 (ngroups + 1), repeat 0 nnz, 0) ;;
  p' <- wr p ngroups e ;;
  Ok (p', s).

(** hdagg.cpp 1236-1277 *)
Definition buildGroupDAG (n ngroups : nat) (group_ptr group_set DAG_ptr DAG_set : list nat) : res (list nat * list nat) :=
  inv <- group_inverse n ngroups group_ptr group_set ;;
  cols <- group_columns ngroups group_ptr group_set DAG_ptr DAG_set inv ;;
  pack_columns ngroups cols.

(** * Renumbering of the groups (1457-1496, 1608-1646, 1742-1781, 1897-1936) *)

(** 1463-1470: smallest member of [set[a..b)] *)
Definition group_min (n : nat) (set : list nat) (a b : nat) : res nat :=
  for_ a b (fun i id => node <- rd set i ;; Ok (if node <? id then node else id)) n.

(** 1459-1476: group id = smallest member; sizes, shifted by one *)
Definition name_groups (n ngroups : nat) (ptr set : list nat) : res (list nat * list nat) :=
  for_ 0 ngroups (fun g '(gid, gsz) =>
    a <- rd ptr g ;; b <- rd ptr (S g) ;;
    id <- group_min n set a b ;;
    gsz' <- wr gsz (S id) (b - a) ;;
    gid' <- for_ a b (fun i gid => node <- rd set i ;; wr gid node id) gid ;;
    Ok (gid', gsz')) (repeat 0 n, repeat 0 (n + 1)).

(** 1491-1494 *)
Definition place_by_name (n : nat) (set gid gsz : list nat) : res (list nat) :=
  '(out, _) <- for_ 0 n (fun i '(out, c) =>
      x <- rd set i ;; l <- rd gid x ;; k <- rd c l ;;
      out' <- wr out k x ;; c' <- wr c l (S k) ;; Ok (out', c')) (repeat 0 n, gsz) ;;
  Ok out.

(** 1457-1496; 1480-1489 are the loops modelled by scan_counts and make_part_ptr *)
Definition renumber_groups (n ngroups : nat) (ptr set : list nat) : res (list nat * list nat) :=
  '(gid, gsz) <- name_groups n ngroups ptr set ;;
  c <- scan_counts n gsz ;;
  gp <- make_part_ptr n c ;;
  gs <- place_by_name n set gid c ;;
  Ok (gp, gs).

(** * Tree grouping *)

(** std::copy(v.begin(), v.end(), p) into an array of the given contents *)
Definition copy_into (v dst : list nat) : res (list nat) :=
  if length v <=? length dst then Ok (v ++ skipn (length v) dst) else Err OOB.

(** 1367-1373, 1518-1524, 1802-1808: the rows of the graph.  The values of the temporary
    matrix are never used. *)
Definition inverse_DAG (n : nat) (DAG_ptr DAG_set : list nat) : res (list nat * list nat) :=
  ec <- rd DAG_ptr n ;;
  let D := new_csc (V := Z) n n ec false in
  p <- copy_into DAG_ptr (cp D) ;;
  i <- copy_into DAG_set (ci D) ;;
  R <- csc_to_csr (mkCSC n n ec false 0%Z p i (cx D)) ;;
  (* vectors built from [p, p + n + 1) and [i, i + edge_counter) *)
  if (n + 1 <=? length (cp R)) && (ec <=? length (ci R))
  then Ok (firstn (n + 1) (cp R), firstn ec (ci R)) else Err OOB.

(** columns that hold nothing but the diagonal: 1376-1380, 1527-1531, 1813-1817 *)
Definition sink_ids (n : nat) (DAG_ptr : list nat) : res (list nat) :=
  for_ 0 n (fun i acc => a <- rd DAG_ptr i ;; b <- rd DAG_ptr (S i) ;;
    Ok (if b - a =? 1 then acc ++ [i] else acc)) [].

(** 1411-1423, 1850-1863: the unvisited predecessors of [head]: those with more than one
    outgoing edge become roots, the others join the group.  The last entry of the row is
    skipped.  The flag says whether a root was added (finish_group of the BFS version). *)
Definition visit_preds (DAG_ptr inv_ptr inv_set : list nat) (head : nat)
    (vis : list bool) (roots queue : list nat) : res (list bool * list nat * list nat * bool) :=
  a <- rd inv_ptr head ;; b <- rd inv_ptr (S head) ;;
  for_ a (b - 1) (fun k (st : list bool * list nat * list nat * bool) => let '(vis, roots, queue, fin) := st in
    child <- rd inv_set k ;;
    v <- rd vis child ;;
    if v then Ok (vis, roots, queue, fin)
    else
      vis' <- wr vis child true ;;
      c <- rd DAG_ptr child ;; d <- rd DAG_ptr (S child) ;;
      if 2 <? d - c then Ok (vis', roots ++ [child], queue, true)
      else if d - c =? 2 then Ok (vis', roots, queue ++ [child], fin)
      else Ok (vis', roots, queue, fin)) (vis, roots, queue, false).

Record tg := mkTG { t_vis : list bool; t_roots : list nat; t_set : list nat; t_cnt : nat; t_ptr : list nat; t_ng : nat }.

(** 1408-1430: one tree, breadth first; [last] is last_size *)
Definition tree_walk (fuel restr : nat) (DAG_ptr inv_ptr inv_set : list nat) (s : tg) (queue : list nat) (last : nat) : res tg :=
  '(s', _, _) <- while_ fuel (fun st : tg * list nat * nat => let '(_, q, _) := st in Ok (negb (length q =? 0)))
    (fun st => let '(s, q, last) := st in
       head <- rd q 0 ;;
       '(vis, roots, q', _) <- visit_preds DAG_ptr inv_ptr inv_set head (t_vis s) (t_roots s) (tl q) ;;
       set' <- wr (t_set s) (t_cnt s) head ;;
       let cnt' := S (t_cnt s) in
       if cnt' - last =? restr
       then Ok (mkTG vis roots set' cnt' (t_ptr s ++ [cnt']) (S (t_ng s)), q', cnt')
       else Ok (mkTG vis roots set' cnt' (t_ptr s) (t_ng s), q', last)) (s, queue, last) ;;
  Ok s'.

(** 1382-1434: all trees; the roots are a stack *)
Definition tree_walks (n restr : nat) (DAG_ptr inv_ptr inv_set roots : list nat) : res tg :=
  s <- while_ (S n) (fun s => Ok (negb (length (t_roots s) =? 0)))
    (fun s =>
       head <- back (t_roots s) ;; roots' <- pop_back (t_roots s) ;;
       vis <- wr (t_vis s) head true ;;
       lastp <- back (t_ptr s) ;;
       let s1 := if lastp =? t_cnt s then mkTG vis roots' (t_set s) (t_cnt s) (t_ptr s) (t_ng s)
                 else mkTG vis roots' (t_set s) (t_cnt s) (t_ptr s ++ [t_cnt s]) (S (t_ng s)) in
       tree_walk (S n) restr DAG_ptr inv_ptr inv_set s1 [head] (t_cnt s)) (mkTG (repeat false n) roots (repeat 0 n) 0 [0] 1) ;;
  lastp <- back (t_ptr s) ;;
  Ok (if lastp =? t_cnt s then s else mkTG (t_vis s) (t_roots s) (t_set s) (t_cnt s) (t_ptr s ++ [t_cnt s]) (t_ng s)).

(** 1349-1498 treeBasedGrouping and 1500-1648 treeBasedGrouping_Aggressive.  [restr] is
    size_restriction, computed in floating point from n (at least 1; n itself without
    the restriction flag): a parameter of the model. *)
Definition treeBasedGrouping (restr n : nat) (DAG_ptr DAG_set : list nat) : res (nat * list nat * list nat) :=
  '(inv_ptr, inv_set) <- inverse_DAG n DAG_ptr DAG_set ;;
  roots <- sink_ids n DAG_ptr ;;
  s <- tree_walks n restr DAG_ptr inv_ptr inv_set roots ;;
  ng <- (if length (t_ptr s) =? t_ng s + 1 then Ok (t_ng s)
         else if length (t_ptr s) =? t_ng s then Ok (t_ng s - 1) else Err Throw) ;;
  '(gp, gs) <- renumber_groups n ng (t_ptr s) (t_set s) ;;
  Ok (ng, gp, gs).

(** * Tree grouping, BFS version (1785-1940) *)

(** 1845-1873: one group.  When the group is finished, what is left of the queue becomes
    roots. *)
Definition bfs_walk (fuel restr : nat) (DAG_ptr inv_ptr inv_set : list nat) (s : tg) (queue : list nat) (last : nat) : res tg :=
  '(s', _) <- while_ fuel (fun st : tg * list nat => let '(_, q) := st in Ok (negb (length q =? 0)))
    (fun st => let '(s, q) := st in
       head <- rd q 0 ;;
       set' <- wr (t_set s) (t_cnt s) head ;;
       let cnt' := S (t_cnt s) in
       '(vis, roots, q', fin) <- visit_preds DAG_ptr inv_ptr inv_set head (t_vis s) (t_roots s) (tl q) ;;
       if fin || (cnt' - last =? restr)
       then Ok (mkTG vis (roots ++ q') set' cnt' (t_ptr s) (t_ng s), [])
       else Ok (mkTG vis roots set' cnt' (t_ptr s) (t_ng s), q')) (s, queue) ;;
  Ok s'.

(** 1819-1877: the roots are a queue *)
Definition bfs_walks (n restr : nat) (DAG_ptr inv_ptr inv_set roots : list nat) : res tg :=
  s <- while_ (S n) (fun s => Ok (negb (length (t_roots s) =? 0)))
    (fun s =>
       head <- rd (t_roots s) 0 ;;
       vis <- wr (t_vis s) head true ;;
       bfs_walk (S n) restr DAG_ptr inv_ptr inv_set
         (mkTG vis (tl (t_roots s)) (t_set s) (t_cnt s) (t_ptr s ++ [t_cnt s]) (S (t_ng s))) [head] (t_cnt s))
    (mkTG (repeat false n) roots (repeat 0 n) 0 [] 0) ;;
  lastp <- back (t_ptr s) ;;
  Ok (if lastp =? t_cnt s then s else mkTG (t_vis s) (t_roots s) (t_set s) (t_cnt s) (t_ptr s ++ [t_cnt s]) (t_ng s)).

(** 1785-1940 *)
Definition treeBasedGroupingBFS (restr n : nat) (DAG_ptr DAG_set : list nat) : res (nat * list nat * list nat) :=
  '(inv_ptr, inv_set) <- inverse_DAG n DAG_ptr DAG_set ;;
  roots <- sink_ids n DAG_ptr ;;
  s <- bfs_walks n restr DAG_ptr inv_ptr inv_set roots ;;
  '(gp, gs) <- renumber_groups n (t_ng s) (t_ptr s) (t_set s) ;;
  Ok (t_ng s, gp, gs).

(** * Chain grouping (1650-1783) *)

(** 1656-1663: the first entry of each column is skipped *)
Definition chain_indegree (n : nat) (DAG_ptr DAG_set : list nat) : res (list nat) :=
  for_ 0 n (fun i deg => a <- rd DAG_ptr i ;; b <- rd DAG_ptr (S i) ;;
    for_ (S a) b (fun k deg => c <- rd DAG_set k ;; d <- rd deg c ;; wr deg c (S d)) deg) (repeat 0 n).

(** 1665-1670 *)
Definition chain_sources (n : nat) (deg : list nat) : res (list nat) :=
  for_ 0 n (fun j acc => d <- rd deg j ;; Ok (if d =? 0 then acc ++ [j] else acc)) [].

(** 1697-1728: one chain.  The stack of the code never holds more than one node: it is
    represented by an option. *)
Definition chain_walk (fuel : nat) (DAG_ptr DAG_set deg : list nat) (s : tg) (head : nat) : res tg :=
  '(s', _) <- while_ fuel (fun st : tg * option nat => let '(_, h) := st in Ok (match h with Some _ => true | None => false end))
    (fun st => let '(s, h) := st in
       let head := match h with Some x => x | None => 0 end in
       vis <- wr (t_vis s) head true ;;
       a <- rd DAG_ptr head ;; b <- rd DAG_ptr (S head) ;;
       '(roots, nxt) <-
         (if b - a =? 2 then
            child <- rd DAG_set (S a) ;;
            d <- rd deg child ;;
            if d =? 1 then Ok (t_roots s, Some child)
            else if 1 <? d then
              v <- rd vis child ;; Ok (if v then t_roots s else t_roots s ++ [child], None)
            else Ok (t_roots s, None)
          else
            roots <- for_ (S a) b (fun i roots => child <- rd DAG_set i ;; v <- rd vis child ;;
                Ok (if v then roots else roots ++ [child])) (t_roots s) ;;
            Ok (roots, None)) ;;
       set' <- wr (t_set s) (t_cnt s) head ;;
       Ok (mkTG vis roots set' (S (t_cnt s)) (t_ptr s) (t_ng s), nxt)) (s, Some head) ;;
  Ok s'.

(** 1672-1732 *)
Definition chain_walks (n : nat) (DAG_ptr DAG_set deg roots : list nat) : res tg :=
  s <- while_ (S n) (fun s => Ok (negb (length (t_roots s) =? 0)))
    (fun s =>
       head <- back (t_roots s) ;; roots' <- pop_back (t_roots s) ;;
       vis <- wr (t_vis s) head true ;;
       chain_walk (S n) DAG_ptr DAG_set deg
         (mkTG vis roots' (t_set s) (t_cnt s) (t_ptr s ++ [t_cnt s]) (S (t_ng s))) head)
    (mkTG (repeat false n) roots (repeat 0 n) 0 [] 0) ;;
  lastp <- back (t_ptr s) ;;
  Ok (if lastp =? t_cnt s then s else mkTG (t_vis s) (t_roots s) (t_set s) (t_cnt s) (t_ptr s ++ [t_cnt s]) (t_ng s)).

Definition chainGrouping (n : nat) (DAG_ptr DAG_set : list nat) : res (nat * list nat * list nat) :=
  ec <- rd DAG_ptr n ;;
  deg <- chain_indegree n DAG_ptr DAG_set ;;
  roots <- chain_sources n deg ;;
  s <- chain_walks n DAG_ptr DAG_set deg roots ;;
  '(gp, gs) <- renumber_groups n (t_ng s) (t_ptr s) (t_set s) ;;
  Ok (t_ng s, gp, gs).

(** * Ungrouping (1942-2017) *)

(** 1955-1970: unpack *)
Definition unpack_groups (level_no : nat) (level_ptr part_ptr node_ptr group_ptr group_set : list nat) : res (list nat * list nat) :=
  '(pp, np) <- for_ 0 level_no (fun i1 st =>
      a <- rd level_ptr i1 ;; b <- rd level_ptr (S i1) ;;
      for_ a b (fun j1 '(pp, np) =>
        c <- rd part_ptr j1 ;; d <- rd part_ptr (S j1) ;;
        np' <- for_ c d (fun k1 np =>
            g <- rd node_ptr k1 ;;
            e <- rd group_ptr g ;; f <- rd group_ptr (S g) ;;
            for_ e f (fun k np => node <- rd group_set k ;; Ok (np ++ [node])) np) np ;;
        Ok (pp ++ [length np], np')) st) ([], []) ;;
  Ok (pp ++ [length np], np).

(** 1981-1989: sort the parts by node id *)
Definition ungroup_sort (level_no : nat) (level_ptr pp np : list nat) : res (list nat) :=
  for_ 0 level_no (fun i1 np =>
    a <- rd level_ptr i1 ;; b <- rd level_ptr (S i1) ;;
    for_ a b (fun j1 np =>
      c <- rd pp j1 ;; d <- rd pp (S j1) ;;
      if c =? d then Ok np else sort_range np c d) np) np.

(** 1997-2014: sort the parts by post order position *)
Definition ungroup_post (junk n level_no : nat) (DAG_ptr DAG_set level_ptr pp np : list nat) : res (list nat) :=
  po <- computePostOrder junk n DAG_ptr DAG_set ;;
  inv <- for_ 0 (length po) (fun i inv => x <- rd po i ;; wr inv x i) (repeat 0 n) ;;
  '(_, np') <- for_ 0 level_no (fun l st =>
      a <- rd level_ptr l ;; b <- rd level_ptr (S l) ;;
      for_ a b (fun p '(buf, np) =>
        c <- rd pp p ;; d <- rd pp (S p) ;;
        '(buf1, m) <- for_ c d (fun q '(buf, m) => x <- rd np q ;; r <- rd inv x ;; buf' <- wr buf m r ;; Ok (buf', S m)) (buf, 0) ;;
        buf2 <- sort_range buf1 0 m ;;
        '(np', _) <- for_ c d (fun q '(np, m) => r <- rd buf2 m ;; x <- rd po r ;; np' <- wr np q x ;; Ok (np', S m)) (np, 0) ;;
        Ok (buf2, np')) st) (repeat 0 n, np) ;;
  Ok np'.

(** 1942-2017.  [dag] is None when the DAG pointers are null. *)
Definition ungrouping (junk n level_no : nat) (level_ptr part_ptr node_ptr group_ptr group_set : list nat)
    (dag : option (list nat * list nat)) (sort_order post_order : bool) : res (list nat * list nat) :=
  if post_order && match dag with None => true | _ => false end then Err Throw
  else
    '(pp, np) <- unpack_groups level_no level_ptr part_ptr node_ptr group_ptr group_set ;;
    if post_order && sort_order then Err Throw
    else if sort_order then
      np' <- ungroup_sort level_no level_ptr pp np ;; Ok (pp, np')
    else if post_order then
      match dag with
      | Some (DAG_ptr, DAG_set) => np' <- ungroup_post junk n level_no DAG_ptr DAG_set level_ptr pp np ;; Ok (pp, np')
      | None => Err Throw
      end
    else Ok (pp, np).

(** * getFinalScheduleDAG (2484-2535) *)

(** 2506-2527: one group per non-empty part *)
Definition final_groups (n level_no : nat) (level_ptr part_ptr node_ptr : list nat) : res (list nat * list nat) :=
  '(gp, gs, _) <- for_ 0 level_no (fun i1 st =>
      a <- rd level_ptr i1 ;; b <- rd level_ptr (S i1) ;;
      for_ a b (fun j1 '(gp, gs, c) =>
        e <- rd part_ptr j1 ;; f <- rd part_ptr (S j1) ;;
        '(gs', c') <- for_ e f (fun k1 '(gs, c) => i <- rd node_ptr k1 ;; gs' <- wr gs c i ;; Ok (gs', S c)) (gs, c) ;;
        lastp <- back gp ;;
        Ok (if lastp =? c' then gp else gp ++ [c'], gs', c')) st) ([0], repeat 0 n, 0) ;;
  Ok (gp, gs).

Definition getFinalScheduleDAG (n level_no : nat) (level_ptr part_ptr node_ptr DAG_ptr DAG_set : list nat)
    : res (nat * list nat * list nat * (list nat * list nat)) :=
  '(gp, gs) <- final_groups n level_no level_ptr part_ptr node_ptr ;;
  let ng := length gp - 1 in
  D <- buildGroupDAG n ng gp gs DAG_ptr DAG_set ;;
  Ok (ng, gp, gs, D).

(** 0 -> 2 -> 3, 1 -> 3, 3 -> 5, 4 -> 5, 4 -> 6 *)
Example grouping_run :
  treeBasedGrouping 7 7 [0;2;4;6;8;11;12;13] [0;2;1;3;2;3;3;5;4;5;6;5;6]
    = Ok (3, [0;5;6;7], [5;3;1;2;0;4;6]).
Proof. vm_compute. reflexivity. Qed.
Example grouping_small_run :
  treeBasedGrouping 2 7 [0;2;4;6;8;11;12;13] [0;2;1;3;2;3;3;5;4;5;6;5;6]
    = Ok (5, [0;1;3;5;6;7], [0;1;2;5;3;4;6]).
Proof. vm_compute. reflexivity. Qed.
Example grouping_bfs_run :
  treeBasedGroupingBFS 7 7 [0;2;4;6;8;11;12;13] [0;2;1;3;2;3;3;5;4;5;6;5;6]
    = Ok (4, [0;4;5;6;7], [3;1;2;0;4;5;6]).
Proof. vm_compute. reflexivity. Qed.
Example chain_run :
  chainGrouping 7 [0;2;4;6;8;11;12;13] [0;2;1;3;2;3;3;5;4;5;6;5;6]
    = Ok (6, [0;2;3;4;5;6;7], [0;2;1;3;4;5;6]).
Proof. vm_compute. reflexivity. Qed.
Example group_dag_run :
  buildGroupDAG 7 3 [0;5;6;7] [5;3;1;2;0;4;6] [0;2;4;6;8;11;12;13] [0;2;1;3;2;3;3;5;4;5;6;5;6]
    = Ok ([0;1;4;5], [0;0;1;2;2]).
Proof. vm_compute. reflexivity. Qed.
