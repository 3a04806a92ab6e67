(** Model of HDAGG::computeSchedule (src/hdagg/hdagg.cpp 332-482). *)
From Verif Require Import Base Lib M_CC M_PostOrder.

(** std::sort(l.data() + a, l.data() + b) on a vector of ints *)
Definition sort_range (l : list nat) (a b : nat) : res (list nat) :=
  if (a <=? b) && (b <=? length l)
  then Ok (firstn a l ++ isort (slice l a b) ++ skipn b l) else Err OOB.

Section Sched.
Variables (n : nat) (DAG_ptr DAG_set level_ptr level_set node_to_level : list nat).

(** hdagg.cpp 378-389: the nodes of levels [lb, ub), into a buffer of size n *)
Definition gather_nodes (lb ub : nat) : res (list nat * nat) :=
  for_ lb ub (fun ii st =>
    a <- rd level_ptr ii ;; b <- rd level_ptr (S ii) ;;
    for_ a b (fun j st => let '(nodes, c) := st in
      x <- rd level_set j ;; nodes' <- wr nodes c x ;; Ok (nodes', S c)) st) (repeat 0 n, 0).

(** hdagg.cpp 398-404: counts per label, shifted by one.  The label -1 of nodes
    outside the window is represented by [n] (labels of window nodes are positions
    in a list of at most [n] nodes). *)
Definition count_labels (node2partition : list nat) : res (list nat) :=
  foreach node2partition (fun it c =>
    if it =? n then Ok c else x <- rd c (S it) ;; wr c (S it) (S x)) (repeat 0 (S n)).

(** hdagg.cpp 405-408 *)
Definition scan_counts (c : list nat) : res (list nat) :=
  for_ 1 n (fun i c => a <- rd c i ;; b <- rd c (S i) ;; wr c (S i) (b + a)) c.

(** hdagg.cpp 412-418 *)
Definition make_part_ptr (c : list nat) : res (list nat) :=
  for_ 0 n (fun i pp => b <- rd c (S i) ;; a <- rd c i ;; Ok (if b =? a then pp else pp ++ [b])) [0].

(** hdagg.cpp 420-423 *)
Definition place_nodes (nodes : list nat) (node2partition c : list nat) : res (list nat) :=
  '(np, _) <- for_ 0 (length nodes) (fun i st => let '(np, c) := st in
      x <- rd nodes i ;; l <- rd node2partition x ;; k <- rd c l ;;
      np' <- wr np k x ;; c' <- wr c l (S k) ;; Ok (np', c')) (repeat 0 (length nodes), c) ;;
  Ok np.

(** hdagg.cpp 398-423: part boundaries and the nodes sorted by component *)
Definition sort_by_label (nodes lab : list nat) : res (list nat * list nat) :=
  c <- count_labels lab ;;
  c' <- scan_counts c ;;
  pp <- make_part_ptr c' ;;
  np <- place_nodes nodes lab c' ;;
  Ok (pp, np).

(** hdagg.cpp 376-423: components of the window and the nodes sorted by component *)
Definition window_parts (lb ub : nat) : res (list nat * list nat) :=
  '(buf, m) <- gather_nodes lb ub ;;
  let nodes := firstn m buf in
  lab <- parallel_cc DAG_ptr DAG_set lb ub node_to_level nodes (repeat n n) ;;
  sort_by_label nodes lab.

(** hdagg.cpp 428-436: part boundaries after assigning parts to cores *)
Definition merge_parts (num_threads : nat) (chunk_array pp : list nat) : res (list nat) :=
  for_ 0 num_threads (fun i m =>
    t <- rd chunk_array (S i) ;;
    v <- rd pp (min t (length pp - 1)) ;;
    wr m (S i) v) (repeat 0 (S num_threads)).

(** hdagg.cpp 447-459: sort the nodes of each merged part by post-order position;
    [buf] is the scratch vector node_ptr_order *)
Definition sort_post (merged po inv : list nat) (buf np : list nat) : res (list nat * list nat) :=
  for_ 0 (length merged - 1) (fun i st => let '(buf, np) := st in
    a <- rd merged i ;; b <- rd merged (S i) ;;
    '(buf1, c) <- for_ a b (fun j st => let '(buf, c) := st in
        x <- rd np j ;; q <- rd inv x ;; buf' <- wr buf c q ;; Ok (buf', S c)) (buf, 0) ;;
    buf2 <- sort_range buf1 0 c ;;
    '(np', _) <- for_ a b (fun j st => let '(np, c) := st in
        q <- rd buf2 c ;; x <- rd po q ;; np' <- wr np j x ;; Ok (np', S c)) (np, 0) ;;
    Ok (buf2, np')) (buf, np).

(** hdagg.cpp 461-464: sort the nodes of each merged part by id *)
Definition sort_ids (merged np : list nat) : res (list nat) :=
  for_ 0 (length merged - 1) (fun i np =>
    a <- rd merged i ;; b <- rd merged (S i) ;; sort_range np a b) np.

(** hdagg.cpp 438-445 and 468-479: append one coarse level *)
Definition append_level (pp : list nat) (clp cpp : list nat) : res (list nat * list nat) :=
  t <- back clp ;;
  last <- back cpp ;;
  cpp' <- for_ 1 (length pp) (fun p acc => v <- rd pp p ;; Ok (acc ++ [v + last])) cpp ;;
  Ok (clp ++ [t + length pp - 1], cpp').

(** hdagg.cpp 332-482.  Returns coarse_level_no, coarse_level_ptr, coarse_part_ptr,
    coarse_node_ptr.  [junk] is the value of the stray read of computePostOrder. *)
Definition computeSchedule (junk num_threads : nat) (WM : list nat) (Chunk_Sizes : list (list nat))
    (apply_serial_schedule postOrder : bool) : res (nat * list nat * list nat * list nat) :=
  '(po, inv) <- (if postOrder then
      po <- computePostOrder junk n DAG_ptr DAG_set ;;
      inv <- for_ 0 (length po) (fun i inv => x <- rd po i ;; wr inv x i) (repeat 0 n) ;;
      Ok (po, inv) else Ok (repeat 0 n, repeat 0 n)) ;;
  '(_, clp, cpp, cnp) <- for_ 0 (length WM - 1) (fun wm st =>
    let '(buf, clp, cpp, cnp) := st in
    lb <- rd WM wm ;; ub <- rd WM (S wm) ;;
    '(pp, np) <- window_parts lb ub ;;
    if apply_serial_schedule then
      chunk_array <- rd Chunk_Sizes wm ;;
      merged <- merge_parts num_threads chunk_array pp ;;
      '(clp', cpp') <- append_level merged clp cpp ;;
      '(buf', np') <- (if postOrder then sort_post merged po inv buf np
                       else np' <- sort_ids merged np ;; Ok (buf, np')) ;;
      Ok (buf', clp', cpp', cnp ++ np')
    else
      '(clp', cpp') <- append_level pp clp cpp ;;
      Ok (buf, clp', cpp', cnp ++ np)) (repeat 0 n, [0], [0], []) ;;
  Ok (length WM - 1, clp, cpp, cnp).

End Sched.

Example sched_run :
  computeSchedule 5 [0;3;5;7;9;10] [0;2;4;1;2;2;3;3;4;4] [0;2;3;4;5] [0;1;2;3;4] [0;0;1;2;3]
    77 2 [0;1;4] [[0;1;2];[0;1;1]] true true = Ok (2, [0;2;4], [0;1;2;5;5], [0;1;2;3;4]).
Proof. vm_compute. reflexivity. Qed.
