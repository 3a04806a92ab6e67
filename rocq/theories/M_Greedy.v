(** Model of class GreedyGrouping (include/aggregation/group.h 105-230, src/Group/Group.cpp 314-553), of
    CollectionGrouping::startSingleChildGrouping (src/Group/Group.cpp 628-713) and of fs_ic0csc_inspector_group
    (src/group_utils.cpp 30-47).  (Group.cpp is in the repository but not in CMakeLists.txt.) *)
From Verif Require Import Base Lib M_Collect.

(** unordered_set::insert.  The order of the elements is not observed: every use sorts them first. *)
Definition set_insert (x : nat) (s : list nat) : list nat := if existsb (Nat.eqb x) s then s else x :: s.

(** Group.cpp 436-444 addChildesToCandidate; [m] is max_search_space_size *)
Definition add_children (m : Z) (Ap Ai : list nat) (node : nat) (pool : list nat) : res (list nat) :=
  lo <- rd Ap node ;; hi <- rd Ap (S node) ;;
  for_ lo hi (fun k pool => x <- rd Ai k ;;
    Ok (if (node <? x) && (Z.of_nat x <=? m + Z.of_nat node)%Z then set_insert x pool else pool)) pool.

(** Group.cpp 366-374, 393-401, 417-425.  A vector of candidates is a list from its back to its front here. *)
Fixpoint drop_le (h : nat) (cur : list nat) : list nat :=
  match cur with
  | x :: r => if x <=? h then drop_le h r else cur
  | [] => []
  end.

(** 388-405 and 411-429: all candidates of the pool, in descending order, without those up to the head; the last one *)
Definition best_of_pool (h : nat) (pool : list nat) : option nat * list nat :=
  match drop_le h (isort pool) with
  | [] => (None, [])
  | b :: r => (Some b, r)
  end.

(** Group.cpp 363-434 getBestCandidate; [None] is -1.  Returns the pool and the vector too. *)
Definition get_best (h : nat) (pool cur : list nat) : option nat * list nat * list nat :=
  match cur with
  | _ :: _ =>
    match drop_le h cur with
    | [] => (None, pool, [])
    | b :: r =>
      if (Z.of_nat b - Z.of_nat h =? 1)%Z then (Some b, pool, r) else
      let pool := fold_right set_insert pool (b :: r) in
      let '(o, c) := best_of_pool h pool in (o, pool, c)
    end
  | [] => match pool with [] => (None, pool, []) | _ :: _ => let '(o, c) := best_of_pool h pool in (o, pool, c) end
  end.

(** the state of the loop 338-353: group_set, node_group_idx, candidate_pool, current_candidates, group_head,
    current_group_idx *)
Definition gstate : Type := list nat * list nat * list nat * list nat * nat * nat.

(** Group.cpp 339-352 *)
Definition greedy_step (m : Z) (Ap Ai : list nat) (st : gstate) : res gstate :=
  let '(gset, inv, pool, cur, h, g) := st in
  pool <- add_children m Ap Ai h pool ;;
  inv <- wr inv h g ;;
  let '(o, pool, cur) := get_best h pool cur in
  let next := match o with Some b => (Z.of_nat b - Z.of_nat h =? 1)%Z | None => (-1 - Z.of_nat h =? 1)%Z end in
  if next then Ok (gset, inv, pool, cur, match o with Some b => b | None => h end, g)
  else Ok (gset ++ [S h], inv, [], [], S h, S g).

(** Group.cpp 446-469 finalizeGroupingProcedure *)
Definition finalize_groups (ng : nat) (Ap Ai gset inv : list nat) : res (list (list nat) * nat) :=
  for_ 0 ng (fun g '(children, total) =>
    gb <- rd gset g ;; ge <- rd gset (S g) ;;
    a <- rd Ap gb ;; b <- rd Ap ge ;;
    kids <- for_ a b (fun k kids => x <- rd Ai k ;; if ge <=? x then y <- rd inv x ;; Ok (set_insert y kids) else Ok kids) [] ;;
    let c := isort (kids ++ [g]) in
    Ok (children ++ [c], total + length c)) ([], 0).

(** Group.cpp 333-361 startGrouping.  group_set, node_group_idx, group_size, group_children, group_nnz *)
Definition startGrouping (n : nat) (m : Z) (Ap Ai : list nat) : res (list nat * list nat * nat * list (list nat) * nat) :=
  '(gset, inv, _, _, _, _) <- while_ (S n) (fun st : gstate => let '(_, _, _, _, h, _) := st in Ok (h <? n)) (greedy_step m Ap Ai)
    ([0], repeat 0 n, [], [], 0, 0) ;;
  let ng := length gset - 1 in
  '(children, total) <- finalize_groups ng Ap Ai gset inv ;;
  Ok (gset, inv, ng, children, total).

(** Group.cpp 471-481 getGroupedCSCFormat *)
Definition getGroupedCSCFormat (ng : nat) (children : list (list nat)) (gp gi : list nat) : res (list nat * list nat) :=
  gp <- wr gp 0 0 ;;
  for_ 0 ng (fun g '(gp, gi) =>
    c <- rd children g ;; s <- rd gp g ;; gp <- wr gp (S g) (length c + s) ;;
    s <- rd gp g ;;
    '(gi, _) <- foreach c (fun x '(gi, k) => gi <- wr gi k x ;; Ok (gi, S k)) (gi, s) ;;
    Ok (gp, gi)) (gp, gi).

(** Group.cpp 488-495 getGroupCost; [None] is INFINITY, [g] is -1 for no group *)
Definition getGroupCost (ng : nat) (Ap gset : list nat) (g : Z) : res (option nat) :=
  if (Z.of_nat ng <=? g)%Z || (g <? 0)%Z then Ok None else
  gb <- rd gset (Z.to_nat g) ;; ge <- rd gset (S (Z.to_nat g)) ;;
  b <- rd Ap ge ;; a <- rd Ap gb ;; Ok (Some (b - a)).

(** a < b on doubles *)
Definition cost_lt (a b : option nat) : bool :=
  match a, b with
  | Some x, Some y => x <? y
  | Some _, None => true
  | None, _ => false
  end.

(** Group.cpp 497-552 mergeSmallGroups; [small c] is c < minimum_group_cost_threshold.  For the current group the cost
    is finite.  Returns group_set, node_group_idx, group_size. *)
Definition mergeSmallGroups (small : nat -> bool) (ng : nat) (Ap gset inv : list nat) : res (list nat * list nat * nat) :=
  if ng =? 1 then Ok (gset, inv, ng) else
  '(gset, _) <- for_ 0 ng (fun c '(gset, pre) =>
    cc <- getGroupCost ng Ap gset (Z.of_nat c) ;;
    nc <- getGroupCost ng Ap gset (Z.of_nat (S c)) ;;
    pc <- getGroupCost ng Ap gset pre ;;
    if (match cc with Some x => small x | None => false end) then
      if cost_lt pc nc then
        gset <- for_ (Z.to_nat (pre + 1)) (S c) (fun gap gset => x <- rd gset (S c) ;; wr gset gap x) gset ;; Ok (gset, pre)
      else x <- rd gset c ;; gset <- wr gset (S c) x ;; Ok (gset, pre)
    else Ok (gset, Z.of_nat c)) (gset, (-1)%Z) ;;
  out <- for_ 0 ng (fun i out => a <- rd gset i ;; b <- rd gset (S i) ;; Ok (if a <? b then out ++ [a] else out)) [] ;;
  l <- (match gset with [] => Err OOB | _ => rd gset (length gset - 1) end) ;;
  let gset := out ++ [l] in
  let ng := length gset - 1 in
  inv <- for_ 0 ng (fun g inv => a <- rd gset g ;; b <- rd gset (S g) ;; for_ a b (fun v inv => wr inv v g) inv) inv ;;
  Ok (gset, inv, ng).

(** * CollectionGrouping::startSingleChildGrouping *)

(** Group.cpp 637-641 *)
Definition count_in (n : nat) (nodes edges : list nat) : res (list nat) :=
  for_ 0 n (fun v cnt => a <- rd nodes v ;; b <- rd nodes (S v) ;;
    for_ a b (fun k cnt => x <- rd edges k ;; c <- rd cnt x ;; wr cnt x (S c)) cnt) (repeat 0 n).

(** 658-679, the loop for one head; [node] is the outer variable, which 660 and 674 use *)
Definition sc_chain (n : nat) (nodes edges cnt : list nat) (node g : nat) (gset gptr inv grouped : list nat) (pos head : nat) :=
  while_ (S n)
    (fun '(gset, gptr, inv, grouped, pos, head) =>
       a <- rd nodes head ;; b <- rd nodes (S head) ;;
       child <- (if 1 <? b - a then s <- rd nodes node ;; x <- rd edges (S s) ;; Ok (Some x) else Ok None) ;;
       match child with
       | Some x => if b - a =? 1 then i <- rd cnt x ;; Ok (i =? 1) else Ok false
       | None => Ok false
       end)
    (fun '(gset, gptr, inv, grouped, pos, head) =>
       s <- rd nodes node ;; head <- rd edges (S s) ;;
       gset <- wr gset pos head ;; inv <- wr inv head g ;;
       k <- rd gptr (S g) ;; gptr <- wr gptr (S g) (S k) ;; grouped <- wr grouped node 1 ;;
       Ok (gset, gptr, inv, grouped, S pos, head))
    (gset, gptr, inv, grouped, pos, head).

(** 643-681 *)
Definition sc_groups (n : nat) (nodes edges : list nat) :=
  cnt <- count_in n nodes edges ;;
  for_ 0 n (fun node '(gset, gptr, inv, grouped, pos, g) =>
    d <- rd grouped node ;;
    if negb (d =? 0) then Ok (gset, gptr, inv, grouped, pos, g) else
    grouped <- wr grouped node 1 ;; inv <- wr inv node g ;; gset <- wr gset pos node ;;
    k <- rd gptr (S g) ;; gptr <- wr gptr (S g) (S k) ;;
    '(gset, gptr, inv, grouped, pos, _) <- sc_chain n nodes edges cnt node g gset gptr inv grouped (S pos) node ;;
    k <- rd gptr (S g) ;; p <- rd gptr g ;; gptr <- wr gptr (S g) (k + p) ;;
    Ok (gset, gptr, inv, grouped, pos, S g))
    (repeat 0 n, repeat 0 (S n), repeat 0 n, repeat 0 n, 0, 0).

(** 628-713 (first call on the object); the compressed graph is made by the same code as in startCNGrouping *)
Definition startSingleChildGrouping (n : nat) (nodes edges : list nat) :=
  nnz <- rd nodes n ;;
  '(gset, gptr, inv, _, _, ng) <- sc_groups n nodes edges ;;
  '(cn, ce) <- cn_graph n nnz nodes edges gset gptr inv ng ;;
  m <- rd cn ng ;;
  Ok (ng, (firstn (S ng) gptr, gset, inv), (firstn (S ng) cn, firstn m ce)).

(** group_utils.cpp 30-47 fs_ic0csc_inspector_group: edges of the columns of each group without their first entry.
    Iteration [i] appends to DAG[i] only, so the parallel loop is sequential here. *)
Definition fs_ic0csc_inspector_group (ngroup : nat) (groupPtr groupSet gInv Lp Li : list nat) (DAG : list (list nat)) : res (list (list nat)) :=
  for_ 0 ngroup (fun i DAG =>
    a <- rd groupPtr i ;; b <- rd groupPtr (S i) ;;
    for_ a b (fun j DAG =>
      iidx <- rd groupSet j ;;
      c <- rd Lp iidx ;; d <- rd Lp (S iidx) ;;
      for_ (S c) d (fun k DAG =>
        x <- rd Li k ;; sid <- rd gInv x ;;
        if sid =? i then Ok DAG else l <- rd DAG i ;; wr DAG i (l ++ [sid])) DAG) DAG) DAG.

Example greedy_run :
  startGrouping 6 2 [0;3;5;6;8;10;11] [0;1;2; 1;4; 2; 3;5; 4;5; 5] = Ok ([0;3;4;6], [0;0;0;1;2;2], 3, [[0;2];[1;2];[2]], 5) /\
  getGroupedCSCFormat 3 [[0;2];[1;2];[2]] (repeat 9 4) (repeat 9 5) = Ok ([0;2;4;5], [0;2;1;2;2]) /\
  mergeSmallGroups (fun c => c <? 3) 3 [0;3;5;6;8;10;11] [0;3;4;6] [0;0;0;1;2;2] = Ok ([0;3;6], [0;0;0;1;1;1], 2) /\
  mergeSmallGroups (fun c => c <? 12) 3 [0;3;5;6;8;10;11] [0;3;4;6] [0;0;0;1;2;2] = Ok ([0], [0;0;0;1;2;2], 0).
Proof. vm_compute. auto. Qed.
