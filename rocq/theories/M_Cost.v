(** Model of costComputation, src/hdagg/hdagg.cpp 2260-2399. *)
From Verif Require Import Base Lib.

(** include/aggregation/hdagg.h 39 *)
Inductive kernel := SpTrSv_LL | SpTrSv_RL | SpICh0_LL | SpICh0_RL | SpICh0_UL | SpILU0_UL | General.

(** [cost[t] += d]; costs are doubles holding counts, modelled by naturals *)
Definition add_cost (cost : list nat) (t d : nat) : res (list nat) := c <- rd cost t ;; wr cost t (c + d).

(** p[v+1] - p[v] *)
Definition length_of (p : list nat) (v : nat) : res nat := b <- rd p (S v) ;; a <- rd p v ;; Ok (b - a).

(** the loops over j (e.g. 2296-2299): for every entry [dep] of row/column [v], the length of
    row/column [dep] is added to the cost of [t] *)
Definition add_row (Lp Li Dp : list nat) (v t : nat) (cost : list nat) : res (list nat) :=
  a <- rd Lp v ;; b <- rd Lp (S v) ;;
  for_ a b (fun j cost => dep <- rd Li j ;; d <- length_of Dp dep ;; add_cost cost t d) cost.

(** 2356-2362: the same with [if(node > j) break;], where j is a position, not a column *)
Definition add_row_break (Lp Li Dp : list nat) (v t : nat) (cost : list nat) : res (list nat) :=
  a <- rd Lp v ;; b <- rd Lp (S v) ;;
  forb_ a b (fun j cost =>
    if j <? v then Ok (true, cost)
    else dep <- rd Li j ;; d <- length_of Dp dep ;; cost' <- add_cost cost t d ;; Ok (false, cost')) cost.

(** the body of the loop over the nodes: the cost of node [v] is added to [t] *)
Definition add_node (k : kernel) (grouped : bool) (Cp Ci Rp Ri : list nat) (v t : nat) (cost : list nat) : res (list nat) :=
  match k with
  | SpTrSv_LL => d <- length_of Rp v ;; add_cost cost t d          (* 2268-2289 *)
  | SpTrSv_RL => d <- length_of Cp v ;; add_cost cost t d
  | SpICh0_LL => add_row Rp Ri Cp v t cost                         (* 2290-2311 *)
  | SpICh0_RL => add_row Cp Ci Cp v t cost                         (* 2312-2333 *)
  | SpICh0_UL => add_row Rp Ri Rp v t cost                         (* 2334-2355 *)
  | SpILU0_UL => if grouped then add_row_break Rp Ri Rp v t cost   (* 2356-2380 *)
                 else add_row Rp Ri Rp v t cost
  | General => add_row Rp Ri Rp v t cost                           (* 2381-2402 *)
  end.

(** The loops over groups / nodes are parallel; every iteration stores to its own entry.
    All kernels of the enumeration are covered, so the last branch (2394-2396) is
    unreachable. *)
Definition costComputation (nodes : nat) (Cp Ci Rp Ri : list nat) (k : kernel) (gp gs : list nat) (grouped : bool)
    (cost : list nat) : res (list nat) :=
  let cost := match cost with [] => [] | _ => repeat 0 nodes end in   (* 2263-2266 *)
  for_ 0 nodes (fun t cost =>
    if grouped then
      a <- rd gp t ;; b <- rd gp (S t) ;;
      for_ a b (fun i cost => v <- rd gs i ;; add_node k true Cp Ci Rp Ri v t cost) cost
    else add_node k false Cp Ci Rp Ri t t cost) cost.
