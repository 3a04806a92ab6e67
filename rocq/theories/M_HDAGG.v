(** Model of HDAGG::computeCC, HDAGG::HDAGG and HDAGG::GLC_V2
    (src/hdagg/hdagg.cpp 486-605, 608-805, 807-1089).

    Costs (doubles in the code) are natural numbers: integer valued costs whose sums
    are exactly representable.  Additions and subtractions are exact.  The division
    total_cost / cores is not: comparing a cost with a quotient is the parameter
    [below a num den], meaning "a < num / den" after whatever rounding.  The outcome of
    the divergence test curr_DKL < 0.003 (log2, rounding, accumulation) is the parameter
    [accept lb iteration].

    The label -1 of node2partition is represented by [n].  parallelLevelset = true
    (needs the SpMP library) is not modelled.  computeCC is the single-threaded
    execution; P_HDAGG.v treats the interleavings. *)
From Verif Require Import Base Lib M_LevelSet M_CC M_PostOrder M_Sched.

Section Comp.
Variables (n : nat) (DAG_ptr DAG_set level_ptr level_set node_to_level node_cost : list nat).

(** hdagg.cpp 500-503: the window's slice of level_set *)
Definition sub_nodes (lb ub : nat) : res (list nat) :=
  a <- rd level_ptr lb ;; b <- rd level_ptr ub ;;
  if (a <=? b) && (b <=? length level_set) then Ok (slice level_set a b) else Err OOB.

(** hdagg.cpp 506-515: one level only *)
Definition cc_one_level (lb ub : nat) (n2p : list nat) : res (list nat * nat * list nat * nat) :=
  a <- rd level_ptr lb ;; b <- rd level_ptr ub ;;
  '(n2p', pc, total) <- for_ a b (fun np st => let '(n2p, pcost, total) := st in
     node <- rd level_set np ;;
     n2p' <- wr n2p node (np - a) ;;
     c <- rd node_cost node ;;
     pcost' <- wr pcost (np - a) c ;;
     Ok (n2p', pcost', total + c)) (n2p, repeat 0 n, 0) ;;
  Ok (n2p', b - a, pc, total).

(** hdagg.cpp 522-530: new nodes become their own component (a node that already has
    a label is only reported on cerr) *)
Definition cc_new_nodes (nodes : list nat) (processed : nat) (n2p : list nat) : res (list nat) :=
  for_ processed (length nodes) (fun i n2p =>
    node <- rd nodes i ;; l <- rd n2p node ;;
    if l =? n then wr n2p node i else Ok n2p) n2p.

(** hdagg.cpp 577-583 *)
Definition mark_parts (n2p : list nat) : res (list nat) :=
  foreach n2p (fun l ex => if l =? n then Ok ex else wr ex l 1) (repeat 0 n).

(** hdagg.cpp 585-592 *)
Definition number_parts (ex : list nat) : res (list nat * nat) :=
  for_ 0 n (fun i st => let '(mp, cnt) := st in
    e <- rd ex i ;;
    if e =? 0 then Ok st else mp' <- wr mp i cnt ;; Ok (mp', S cnt)) (repeat 0 n, 0).

(** hdagg.cpp 596-602 *)
Definition part_costs (nodes n2p mp : list nat) : res (list nat * nat) :=
  foreach nodes (fun node st => let '(pcost, total) := st in
    l <- rd n2p node ;; q <- rd mp l ;; c <- rd node_cost node ;;
    x <- rd pcost q ;; pcost' <- wr pcost q (x + c) ;; Ok (pcost', total + c)) (repeat 0 n, 0).

(** hdagg.cpp 486-605.  Returns node2partition, part_cnt, partition_cost, total_cost. *)
Definition computeCC (lb computed_up_to ub : nat) (n2p : list nat)
  : res (list nat * nat * list nat * nat) :=
  nodes <- sub_nodes lb ub ;;
  a <- rd level_ptr lb ;; c <- rd level_ptr computed_up_to ;;
  if ub - lb =? 1 then cc_one_level lb ub n2p
  else
    n2p1 <- cc_new_nodes nodes (c - a) n2p ;;
    n2p2 <- cc_iterate DAG_ptr DAG_set lb ub node_to_level nodes n2p1 ;;
    ex <- mark_parts n2p2 ;;
    '(mp, part_cnt) <- number_parts ex ;;
    '(pcost, total) <- part_costs nodes n2p2 mp ;;
    Ok (n2p2, part_cnt, pcost, total).

End Comp.

(** ** Assigning components to cores, hdagg.cpp 701-748 and 919-966 *)
Section Balance.
Variable below : nat -> nat -> nat -> bool.

(** cost < cost_per_core where cost_per_core = num / den; division by zero gives
    infinity or NaN *)
Definition lt_share (a num den : nat) : bool :=
  if den =? 0 then 0 <? num else below a num den.

(** cost_per_core == 0 *)
Definition share_zero (num den : nat) : bool := if den =? 0 then false else num =? 0.

Record bal := mkBal { b_part : nat; b_tid : nat; b_cost : list nat; b_chunk : list nat;
                      b_to : nat; b_num : nat; b_den : nat; b_brk : bool }.

(** hdagg.cpp 714-740 *)
Definition balance_step (cores part_cnt total : nat) (pcost : list nat) (s : bal) : res bal :=
  x <- rd (b_cost s) (b_tid s - 1) ;;
  if lt_share x (b_num s) (b_den s) then
    c <- rd pcost (b_part s) ;;
    cost' <- wr (b_cost s) (b_tid s - 1) (x + c) ;;
    chunk' <- wr (b_chunk s) (b_tid s) (S (b_part s)) ;;
    Ok (mkBal (S (b_part s)) (b_tid s) cost' chunk' (b_to s) (b_num s) (b_den s) false)
  else
    let to' := b_to s + x in
    let num' := total - to' in
    let den' := cores - b_tid s in
    let tid' := S (b_tid s) in
    if share_zero num' den' then
      Ok (mkBal (b_part s) tid' (b_cost s) (b_chunk s) to' num' den' true)
    else if tid' =? cores then
      chunk' <- wr (b_chunk s) cores part_cnt ;;
      cost' <- wr (b_cost s) (cores - 1) num' ;;
      Ok (mkBal (b_part s) tid' cost' chunk' to' num' den' true)
    else Ok (mkBal (b_part s) tid' (b_cost s) (b_chunk s) to' num' den' false).

(** hdagg.cpp 701-748: returns chunk_array and cost *)
Definition balance (cores part_cnt total : nat) (pcost chunk : list nat) : res (list nat * list nat) :=
  '(tid, cost, chunk1) <-
    (if part_cnt <? cores then
       '(chunk', cost') <- for_ 0 part_cnt (fun part st => let '(ch, co) := st in
          ch' <- wr ch (S part) (S part) ;;
          c <- rd pcost part ;; co' <- wr co part c ;; Ok (ch', co')) (chunk, repeat 0 cores) ;;
       Ok (part_cnt, cost', chunk')
     else
       s <- while_ (S (part_cnt + cores)) (fun s => Ok (negb (b_brk s) && (b_part s <? part_cnt)))
              (balance_step cores part_cnt total pcost)
              (mkBal 0 1 (repeat 0 cores) chunk 0 total cores false) ;;
       Ok (b_tid s, b_cost s, b_chunk s)) ;;
  chunk2 <- for_ tid cores (fun i ch => wr ch (S i) part_cnt) chunk1 ;;
  Ok (chunk2, cost).

End Balance.

(** ** The greedy search for one window, hdagg.cpp 664-780 and 879-1012.
    [w_acc] is node2partition_accepted, present in GLC_V2 only. *)
Section Search.
Variables (below : nat -> nat -> nat -> bool) (accept : nat -> nat -> bool).
Variables (n : nat) (DAG_ptr DAG_set level_ptr level_set node_to_level node_cost : list nat).
Variables (cores nlevels : nat).

Record sw := mkSW { w_n2p : list nat; w_acc : list nat; w_chunk : list nat;
                    w_sizes : list (list nat); w_computed : nat; w_prev : nat; w_cand : nat;
                    w_ub : nat; w_iter : nat; w_eff : nat; w_done : bool }.

(** hdagg.cpp 682-779: one iteration; [widx] = WM.size() - 1 *)
Definition search_step (lb widx : nat) (s : sw) : res sw :=
  let iter := S (w_iter s) in
  let ub := w_ub s in
  sizes1 <- wr (w_sizes s) widx (w_chunk s) ;;
  p1 <- rd level_ptr ub ;; p0 <- rd level_ptr (ub - 1) ;;
  let eff := if (ub - lb =? 1) && (p1 - p0 <? cores) then p1 - p0
             else if w_eff s <? p1 - p0 then cores else w_eff s in
  '(n2p, part_cnt, pcost, total) <-
     computeCC n DAG_ptr DAG_set level_ptr level_set node_to_level node_cost
               lb (w_computed s) ub (w_n2p s) ;;
  '(chunk, cost) <- balance below cores part_cnt total pcost (w_chunk s) ;;
  (* 751-756: the divergence reads cost[0..effective_cores) *)
  _ <- for_ 0 eff (fun i _ => rd cost i) 0 ;;
  if accept lb iter then
    let ub' := min (ub + 1) nlevels in
    let fin := w_prev s =? ub' in
    sizes2 <- (if fin && (iter =? 1) then wr sizes1 widx chunk else Ok sizes1) ;;
    Ok (mkSW n2p n2p chunk sizes2 ub ub' ub ub' iter eff fin)
  else
    sizes2 <- (if iter =? 1 then wr sizes1 widx chunk else Ok sizes1) ;;
    Ok (mkSW n2p (if iter =? 1 then n2p else w_acc s) chunk sizes2 ub (w_prev s) (w_cand s) ub iter eff true).

(** hdagg.cpp 666-780 *)
Definition search_window (lb widx : nat) (sizes : list (list nat)) : res sw :=
  while_ (S (S nlevels)) (fun s => Ok (negb (w_done s))) (search_step lb widx)
    (mkSW (repeat n n) (repeat 0 n) (repeat 0 (S cores)) sizes lb 0 (S lb) (min (lb + 1) nlevels) 0 cores false).

(** hdagg.cpp 660-783: the cut points and the chunk tables *)
Definition search_all : res (list nat * list (list nat)) :=
  '(WM, sizes, _) <- while_ (S nlevels)
    (fun st : list nat * list (list nat) * nat => let '(_, _, lvl) := st in Ok (lvl <? nlevels))
    (fun st => let '(WM, sizes, lvl) := st in
       s <- search_window lvl (length WM - 1) sizes ;;
       Ok (WM ++ [w_cand s], w_sizes s, w_cand s))
    ([0], repeat [] nlevels, 0) ;;
  Ok (WM, sizes).

(** hdagg.cpp 1014-1046: the nodes of the accepted window sorted by component (the
    slice of level_set is taken first; the code takes it after the counting) *)
Definition glc_parts (lbl ubl : nat) (acc : list nat) : res (list nat * list nat) :=
  nodes <- sub_nodes level_ptr level_set lbl ubl ;;
  sort_by_label n nodes acc.

(** hdagg.cpp 876-1078 *)
Definition glc_all (bin_pack : bool) : res (list nat * list nat * list nat * list nat) :=
  '(WM, _, _, clp, cpp, cnp) <- while_ (S nlevels)
    (fun st : list nat * list (list nat) * nat * list nat * list nat * list nat =>
       let '(_, _, lvl, _, _, _) := st in Ok (lvl <? nlevels))
    (fun st => let '(WM, sizes, lvl, clp, cpp, cnp) := st in
       s <- search_window lvl (length WM - 1) sizes ;;
       let WM' := WM ++ [w_cand s] in
       ubl <- rd WM' (length WM' - 1) ;; lbl <- rd WM' (length WM' - 2) ;;
       '(pp, np) <- glc_parts lbl ubl (w_acc s) ;;
       '(clp', cpp') <- (if bin_pack then
           chunk_array <- rd (w_sizes s) (length WM' - 2) ;;
           merged <- merge_parts cores chunk_array pp ;;
           append_level merged clp cpp
         else append_level pp clp cpp) ;;
       Ok (WM', w_sizes s, w_cand s, clp', cpp', cnp ++ np))
    ([0], repeat [] nlevels, 0, [0], [0], []) ;;
  Ok (WM, clp, cpp, cnp).

End Search.

(** hdagg.cpp 608-805 with parallelLevelset = false.  Returns WM and the schedule.
    A negative level count makes the vector constructor throw (661). *)
Definition HDAGG below accept junk (n : nat) (DAG_ptr DAG_set node_cost : list nat) (cores : nat)
    (postOrder bin_pack : bool) : res (list nat * (nat * list nat * list nat * list nat)) :=
  '(nl, (level_ptr, level_set, node_to_level)) <-
     build_levelSet_CSC n DAG_ptr DAG_set (repeat 0 (n + 1)) (repeat 0 n) (repeat 0 n) ;;
  if (nl <? 0)%Z then Err Throw
  else
    let nlevels := Z.to_nat nl in
    '(WM, sizes) <- search_all below accept n DAG_ptr DAG_set level_ptr level_set node_to_level node_cost cores nlevels ;;
    r <- computeSchedule n DAG_ptr DAG_set level_ptr level_set node_to_level junk cores WM sizes bin_pack postOrder ;;
    Ok (WM, r).

(** hdagg.cpp 807-1089 with parallelLevelset = false *)
Definition GLC_V2 below accept (n : nat) (DAG_ptr DAG_set node_cost : list nat) (cores : nat)
    (bin_pack : bool) : res (list nat * (nat * list nat * list nat * list nat)) :=
  '(nl, (level_ptr, level_set, node_to_level)) <-
     build_levelSet_CSC n DAG_ptr DAG_set (repeat 0 (n + 1)) (repeat 0 n) (repeat 0 n) ;;
  if (nl <? 0)%Z then Err Throw
  else
    '(WM, clp, cpp, cnp) <- glc_all below accept n DAG_ptr DAG_set level_ptr level_set node_to_level node_cost
                              cores (Z.to_nat nl) bin_pack ;;
    Ok (WM, (length WM - 1, clp, cpp, cnp)).

(** exact comparison of a cost with a quotient *)
Definition below_exact (a num den : nat) : bool := a * den <? num.

