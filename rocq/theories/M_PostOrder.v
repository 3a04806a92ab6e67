(** Model of HDAGG::computePostOrder (src/hdagg/hdagg.cpp 215-264). *)
From Verif Require Import Base.

Section PostOrder.
Variables (n : nat) (DAG_ptr DAG_set : list nat).

(** hdagg.cpp 219-225: in_degree, skipping the first entry of each column *)
Definition po_indegree : res (list nat) :=
  for_ 0 n (fun i deg =>
    b <- rd DAG_ptr i ;; e <- rd DAG_ptr (S i) ;;
    for_ (S b) e (fun cp deg =>
      c <- rd DAG_set cp ;; d <- rd deg c ;; wr deg c (S d)) deg) (repeat 0 n).

(** hdagg.cpp 227-232 *)
Definition po_leaves (deg : list nat) : res (list nat) :=
  for_ 0 n (fun i leafs => d <- rd deg i ;; Ok (if d =? 0 then leafs ++ [i] else leafs)) [].

(** hdagg.cpp 246-254: look for an unvisited child, scanning the column of [head]
    from its last entry down to (excluding) its first.  Returns visited, stack,
    head and all_parent_visited. *)
Definition po_scan (vis : list bool) (stack : list nat) (head : nat)
  : res (list bool * list nat * nat * bool) :=
  e <- rd DAG_ptr (S head) ;; b <- rd DAG_ptr head ;;
  forb_ 0 (e - 1 - b) (fun d st =>
    let '(vis, stack, head, _) := st in
    child <- rd DAG_set (e - 1 - d) ;;
    v <- rd vis child ;;
    if v : bool then Ok (false, st)
    else vis' <- wr vis child true ;; Ok (true, (vis', stack ++ [child], child, false)))
    (vis, stack, head, true).

(** State of the depth-first loop: visited, stack, head, post_order, order_cnt. *)
Definition po_state : Type := list bool * list nat * nat * list nat * nat.

(** hdagg.cpp 244-261: one iteration of the inner while loop.
    After the pop the code executes [head = stack.back()] even when the stack has
    become empty, which is undefined behaviour; the value read is never used.
    [strict = true] reports it as [Err OOB]; [strict = false] models a read of an
    unspecified value, [junk]. *)
Definition po_iter (strict : bool) (junk : nat) (s : po_state) : res po_state :=
  let '(vis, stack, head, po, cnt) := s in
  '(vis', stack', head', all_vis) <- po_scan vis stack head ;;
  if all_vis : bool then
    top <- back stack' ;;
    po' <- wr po (n - 1 - cnt) top ;;
    stack'' <- pop_back stack' ;;
    head'' <- (if (length stack'' =? 0) && negb strict then Ok junk else back stack'') ;;
    Ok (vis', stack'', head'', po', S cnt)
  else Ok (vis', stack', head', po, cnt).

(** hdagg.cpp 238-262: DFS from one leaf *)
Definition po_leaf (strict : bool) (junk : nat) (leafs : list nat) (leaf_ptr : nat)
    (st : list bool * list nat * nat) : res (list bool * list nat * nat) :=
  let '(vis, po, cnt) := st in
  leaf <- rd leafs (length leafs - leaf_ptr - 1) ;;
  vis' <- wr vis leaf true ;;
  '(vis'', _, _, po', cnt') <-
    while_ (S (S (2 * n)))
      (fun s : po_state => let '(_, stack, _, _, _) := s in Ok (negb (length stack =? 0)))
      (po_iter strict junk) (vis', [leaf], leaf, po, cnt) ;;
  Ok (vis'', po', cnt').

(** hdagg.cpp 215-264.  [post_order] is resized to [n]; its previous contents are
    irrelevant when the graph has no cycle, here zeros (callers pass a zeroed vector). *)
Definition computePostOrder_ (strict : bool) (junk : nat) : res (list nat) :=
  deg <- po_indegree ;;
  leafs <- po_leaves deg ;;
  '(_, po, _) <- for_ 0 (length leafs) (po_leaf strict junk leafs) (repeat false n, repeat 0 n, 0) ;;
  Ok po.

End PostOrder.

(** The function as it behaves on a platform where the stray read returns [junk]. *)
Definition computePostOrder (junk n : nat) (DAG_ptr DAG_set : list nat) : res (list nat) :=
  computePostOrder_ n DAG_ptr DAG_set false junk.

(** The function with the stray read of an empty vector reported as an error. *)
Definition computePostOrder_strict (n : nat) (DAG_ptr DAG_set : list nat) : res (list nat) :=
  computePostOrder_ n DAG_ptr DAG_set true 0.

Example po_run : computePostOrder 77 5 [0;3;5;7;9;10] [0;2;4;1;2;2;3;3;4;4] = Ok [0;1;2;3;4].
Proof. vm_compute. reflexivity. Qed.
