(** Model of the statistics of the solver classes in example/SpTRSV_runtime.h and example/sptrsv_demo_utils.h.
    Costs are doubles holding counts, modelled by naturals (no overflow, no rounding).  Quotients are
    returned as numerator and denominator, so that division by zero is visible. *)
From Verif Require Import Base Lib.

(** SpTRSV_runtime.h 391-397, 561-567, 783-789: the cost of the nodes of a part *)
Definition part_cost (cost node_ptr : list nat) (a b : nat) : res nat :=
  for_ a b (fun i c => node <- rd node_ptr i ;; x <- rd cost node ;; Ok (c + x)) 0.

(** 375-380: the number of non-empty parts.  size() - 1 is unsigned: for an empty vector the loop runs
    over it *)
Definition count_parts (part_ptr : list nat) : res nat :=
  if length part_ptr =? 0 then Err OOB
  else for_ 0 (length part_ptr - 1) (fun i c =>
    b <- rd part_ptr (S i) ;; a <- rd part_ptr i ;; Ok (if b =? a then c else S c)) 0.

(** 386-409: total, largest and smallest cost of the parts of a level; the smallest starts from n *)
Definition level_stat (n : nat) (cost level_ptr part_ptr node_ptr : list nat) (lvl : nat) : res (nat * nat * nat) :=
  a <- rd level_ptr lvl ;; b <- rd level_ptr (S lvl) ;;
  for_ a b (fun w '(total, mx, mn) =>
    p <- rd part_ptr w ;; q <- rd part_ptr (S w) ;;
    c <- part_cost cost node_ptr p q ;;
    Ok (total + c, (if mx <? c then c else mx), (if c <? mn then c else mn))) (0, 0, n).

(** 374-424, 543-593, 765-815: computeStatistic.  Returns part_no (avg_par is part_no / level_no) and the
    numerator and denominator of max_diff.  The vectors max_part, min_part and level_weight are
    consumed by the second loop in the order in which they are filled; here both loops are one. *)
Definition computeStatistic (n level_no : nat) (cost level_ptr part_ptr node_ptr : list nat) : res (nat * Z * nat) :=
  part_no <- count_parts part_ptr ;;
  '(num, den) <- for_ 0 level_no (fun l '(num, den) =>
    '(total, mx, mn) <- level_stat n cost level_ptr part_ptr node_ptr l ;;
    Ok ((num + Z.of_nat total * (Z.of_nat mx - Z.of_nat mn))%Z, den + total)) (0%Z, 0) ;;
  Ok (part_no, num, den).

(** 328-371, 497-540, 719-762: computeCharacteristics.  Returns the quotients max_size / total_nodes of the
    first three levels (None: the argument is not assigned), the numerator of avg (the denominator is n)
    and the sum compared with n by the assertion. *)
Definition computeCharacteristics (level_no : nat) (level_ptr part_ptr : list nat) :
    res (option (nat * nat) * option (nat * nat) * option (nat * nat) * nat * nat) :=
  for_ 0 level_no (fun lvl '(first, second, third, smax, sum) =>
    a <- rd level_ptr lvl ;; b <- rd level_ptr (S lvl) ;;
    '(total, mx) <- for_ a b (fun w '(total, mx) =>
      q <- rd part_ptr (S w) ;; p <- rd part_ptr w ;;
      Ok (total + (q - p), if mx <? q - p then q - p else mx)) (0, 0) ;;
    Ok (if lvl =? 0 then Some (mx, total) else first,
        if lvl =? 1 then Some (mx, total) else second,
        if lvl =? 2 then Some (mx, total) else third, smax + mx, sum + total)) (None, None, None, 0, 0).

(** 846-872 and 897-921, the loop shared by getPotentialGain and computeMetrics for one level: non-empty
    parts, nodes, cost and largest part cost *)
Definition level_metrics (cost level_ptr part_ptr node_ptr : list nat) (lvl : nat) : res (nat * nat * nat * nat) :=
  a <- rd level_ptr lvl ;; b <- rd level_ptr (S lvl) ;;
  for_ a b (fun w '(parts, nodes, lcost, mx) =>
    q <- rd part_ptr (S w) ;; p <- rd part_ptr w ;;
    '(nodes, lcost, pc) <- for_ p q (fun i '(nodes, lcost, pc) =>
      node <- rd node_ptr i ;; x <- rd cost node ;; Ok (S nodes, lcost + x, pc + x)) (nodes, lcost, 0) ;;
    Ok ((if q =? p then parts else S parts), nodes, lcost, if mx <? pc then pc else mx)) (0, 0, 0, 0).

(** 832-875: getPotentialGain is 1 - (Total_cost / nthreads) / critical_path; returns Total_cost and
    critical_path *)
Definition getPotentialGain (level_no : nat) (cost level_ptr part_ptr node_ptr : list nat) : res (nat * nat) :=
  for_ 0 level_no (fun lvl '(total, crit) =>
    '(_, _, lcost, mx) <- level_metrics cost level_ptr part_ptr node_ptr lvl ;;
    Ok (total + lcost, crit + mx)) (0, 0).

(** 877-934, the parallelism part of computeMetrics: number of non-empty parts (avgParallelism is this over
    level_no), Total_cost and the numerators of CostAvgParallelism (over Total_cost) and
    WeightedAvgParallelism (over n).  The numerators start from the values the caller passed in. *)
Definition computeMetrics (level_no : nat) (cost level_ptr part_ptr node_ptr : list nat) (cap0 wap0 : nat) : res (nat * nat * nat * nat) :=
  for_ 0 level_no (fun lvl '(np, total, cap, wap) =>
    '(parts, nodes, lcost, _) <- level_metrics cost level_ptr part_ptr node_ptr lvl ;;
    Ok (np + parts, total + lcost, cap + parts * lcost, wap + parts * nodes)) (0, 0, cap0, wap0).

(** sptrsv_demo_utils.h 218-229: averWsize; numerator and denominator.  [Rp]: row pointers *)
Definition averWsize (level_no : nat) (Rp level_ptr part_ptr node_ptr : list nat) : res (nat * nat) :=
  part_no <- rd level_ptr level_no ;;
  ncols <- for_ 0 part_no (fun i ncols =>
    a <- rd part_ptr i ;; b <- rd part_ptr (S i) ;;
    for_ a b (fun k1 ncols => k <- rd node_ptr k1 ;; q <- rd Rp (S k) ;; p <- rd Rp k ;; Ok (ncols + (q - p))) ncols) 0 ;;
  Ok (ncols, part_no).

(** sptrsv_demo_utils.h 231-246: consecutiveRatio; numerator sum and denominator t_sum *)
Definition consecutiveRatio (level_no : nat) (level_ptr part_ptr node_ptr : list nat) : res (nat * Z) :=
  part_no <- rd level_ptr level_no ;;
  for_ 0 part_no (fun i '(sum, t_sum) =>
    a <- rd part_ptr i ;; b <- rd part_ptr (S i) ;;
    sum <- for_ a (b - 1) (fun k1 sum =>
      y <- rd node_ptr (S k1) ;; x <- rd node_ptr k1 ;; Ok (if y =? S x then S sum else sum)) sum ;;
    Ok (sum, (t_sum + (Z.of_nat b - Z.of_nat a - 1))%Z)) (0, 0%Z).
