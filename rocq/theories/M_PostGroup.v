(** Model of HDAGG::computePostOrderAndGroup (src/hdagg/hdagg.cpp 71-213), the version for
    std::vector, the only one that is defined. *)
From Verif Require Import Base Lib M_PostOrder.

Section PostGroup.
Variables (n : nat) (DAG_ptr DAG_set : list nat).

(** 134: DAG_set[DAG_ptr[curr] + 1], read even if column [curr] has no second entry.  Behind
    the end of the vector this is undefined behaviour: [strict = true] reports it,
    [strict = false] reads an unspecified value [junk]. *)
Definition pg_child (strict : bool) (junk curr : nat) : res nat :=
  a <- rd DAG_ptr curr ;;
  if (length DAG_set <=? S a) && negb strict then Ok junk else rd DAG_set (S a).

(** 125-148: position [i] of the order.  State: groupPtr, groupInv, ngroups, nodes_cnt *)
Definition pg_node (strict : bool) (junk : nat) (in_degree post_order : list nat) (i : nat)
    (st : list nat * list nat * nat * nat) : res (list nat * list nat * nat * nat) :=
  let '(groupPtr, groupInv, ngroups, nodes_cnt) := st in
  curr <- rd post_order i ;;
  '(next, in_edges, child) <-
    (if S i <? n then
       next <- rd post_order (S i) ;; d <- rd in_degree next ;; c <- pg_child strict junk curr ;; Ok (next, d, c)
     else Ok (0, 1, 0)) ;;
  b <- rd DAG_ptr (S curr) ;; a <- rd DAG_ptr curr ;;
  let out_edges := (Z.of_nat b - Z.of_nat a - 1)%Z in
  groupInv <- wr groupInv curr ngroups ;;
  if (Z.of_nat in_edges =? out_edges)%Z && (in_edges =? 1) && (child =? next)
  then Ok (groupPtr, groupInv, ngroups, S nodes_cnt)
  else Ok (groupPtr ++ [S nodes_cnt], groupInv, S ngroups, S nodes_cnt).

(** 117-148 *)
Definition pg_groups (strict : bool) (junk : nat) (in_degree post_order : list nat)
  : res (list nat * list nat * nat * nat) :=
  for_ 0 n (pg_node strict junk in_degree post_order) ([0], repeat 0 n, 0, 0).

(** 166-179 *)
Definition pg_dag (post_order groupPtr groupInv : list nat) (ngroups : nat) : res (list nat * list nat) :=
  for_ 0 ngroups (fun group '(dp, ds) =>
    e <- rd groupPtr (S group) ;; node <- rd post_order (e - 1) ;;
    tmp <- back dp ;;
    let dp := dp ++ [tmp] in
    a <- rd DAG_ptr node ;; b <- rd DAG_ptr (S node) ;;
    for_ a b (fun child '(dp, ds) =>
      v <- rd DAG_set child ;; g <- rd groupInv v ;;
      t <- back dp ;; dp <- wr dp (length dp - 1) (S t) ;; Ok (dp, ds ++ [g])) (dp, ds)) ([0], []).

(** 71-213.  78-115 are the lines of computePostOrder (219-262), with the same in_degree.
    groupPtr, group_DAG_ptr and group_DAG_set are empty at the call.
    Returns ngroups, groupPtr, post_order, group_DAG_ptr, group_DAG_set and groupInv (a
    local of the function). *)
Definition computePostOrderAndGroup_ (strict : bool) (junk junk' : nat)
  : res (nat * list nat * list nat * list nat * list nat * list nat) :=
  in_degree <- po_indegree n DAG_ptr DAG_set ;;
  post_order <- computePostOrder_ n DAG_ptr DAG_set false junk ;;
  '(groupPtr, groupInv, ngroups, _) <- pg_groups strict junk' in_degree post_order ;;
  '(dp, ds) <- pg_dag post_order groupPtr groupInv ngroups ;;
  Ok (ngroups, groupPtr, post_order, dp, ds, groupInv).

(** 149-162 and 182-211, the assertions of a debug build, on the results: 155 compares
    (in_degree[next] == out_degree) with 1.  198-206: the groups of all the entries of the
    columns of the group, neighbours that are equal removed, against the group DAG. *)
Definition pg_asserts (in_degree post_order groupPtr groupInv dp ds : list nat) (ngroups : nat) : res unit :=
  for_ 0 ngroups (fun group _ =>
    a <- rd groupPtr group ;; b <- rd groupPtr (S group) ;;
    _ <- for_ a (b - 1) (fun k _ =>
      curr <- rd post_order k ;; next <- rd post_order (S k) ;; d <- rd in_degree next ;;
      e <- rd DAG_ptr (S curr) ;; c <- rd DAG_ptr curr ;;
      if (Z.of_nat d =? Z.of_nat e - Z.of_nat c - 1)%Z then Ok tt else Err Throw) tt ;;
    _ <- for_ a b (fun k _ =>
      curr <- rd post_order k ;; g <- rd groupInv curr ;; if g =? group then Ok tt else Err Throw) tt ;;
    l <- for_ a b (fun k l =>
      curr <- rd post_order k ;; c <- rd DAG_ptr curr ;; e <- rd DAG_ptr (S curr) ;;
      for_ c e (fun q l => v <- rd DAG_set q ;; g <- rd groupInv v ;; Ok (l ++ [g])) l) [] ;;
    let l := uniq l in
    for_ 0 (length l) (fun i _ =>
      x <- rd dp group ;; y <- rd ds (x + i) ;; z <- rd l i ;; if y =? z then Ok tt else Err Throw) tt) tt.
End PostGroup.

Definition computePostOrderAndGroup (junk junk' n : nat) (DAG_ptr DAG_set : list nat) :=
  computePostOrderAndGroup_ n DAG_ptr DAG_set false junk junk'.

(** the read of 134 checked (the stray read of the stack of 110 is left unspecified, see
    M_PostOrder) *)
Definition computePostOrderAndGroup_checked (junk n : nat) (DAG_ptr DAG_set : list nat) :=
  computePostOrderAndGroup_ n DAG_ptr DAG_set true junk 0.

Example pg_run :
  computePostOrderAndGroup 7 7 6 [0;2;4;6;8;10;11] [0;1;1;2;2;4;3;4;4;5;5]
  = Ok (3, [0;3;4;6], [0;1;2;3;4;5], [0;2;4;5], [0;2;1;2;2], [0;0;0;1;2;2]).
Proof. vm_compute. reflexivity. Qed.
