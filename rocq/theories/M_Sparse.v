(** Model of partialSparsification, src/hdagg/hdagg.cpp 2019-2257. *)
From Verif Require Import Base Lib M_PostOrder.

(** * Clique detection (2031-2106) *)

(** 2072-2078: do the last [off] entries of column [first] equal column [last]? *)
Definition same_tail (Lp Li : list nat) (first last diff off : nat) : res bool :=
  forb_ 0 off (fun row _ =>
    f0 <- rd Lp first ;; l0 <- rd Lp last ;;
    x <- rd Li (f0 + row + diff) ;; y <- rd Li (l0 + row) ;;
    Ok (if x =? y then (false, true) else (true, false))) true.

(** 2053-2088: the width of the clique that starts at [first].  The state is (width, last,
    stopped).  [off_first] may be negative in the code; it is compared with a count, so the
    comparison is written without subtraction. *)
Definition clique_width (n : nat) (Lp Li : list nat) (first : nat) : res nat :=
  '(width, _, _) <- while_ (S n)
    (fun st : nat * nat * bool => let '(w, l, stop) := st in Ok (negb stop && (l <? n) && (w <? n)))
    (fun st => let '(w, l, _) := st in
       let diff := l - first in
       l0 <- rd Lp l ;; l1 <- rd Lp (S l) ;; f0 <- rd Lp first ;; f1 <- rd Lp (S first) ;;
       if negb (f1 - f0 =? (l1 - l0) + diff) then Ok (w, l, true)
       else
         can <- same_tail Lp Li first l diff (l1 - l0) ;;
         Ok (if can then (S w, S l, false) else (w, l, true))) (1, S first, false) ;;
  Ok width.

(** 2045-2050: the columns of a thread *)
Definition thread_start (n bins tid : nat) : nat := n / bins * tid.
Definition thread_end (n bins tid : nat) : nat := if tid =? bins - 1 then n else n / bins * (tid + 1).

(** 2047-2093: where the cliques of a thread begin and end; the last one may pass the end
    of the thread's columns *)
Definition thread_cuts (n : nat) (Lp Li : list nat) (start_col end_col : nat) : res (list nat) :=
  '(cuts, _) <- while_ (S (end_col - start_col)) (fun st : list nat * nat => Ok (snd st <? end_col))
    (fun st => let '(cuts, col) := st in
       w <- clique_width n Lp Li col ;; Ok (cuts ++ [col + w], col + w)) ([start_col], start_col) ;;
  Ok cuts.

(** 2095-2101: the stores (node, label) of a thread, in order *)
Definition thread_writes (n : nat) (Lp Li : list nat) (bins tid : nat) : res (list (nat * nat)) :=
  let start_col := thread_start n bins tid in
  cuts <- thread_cuts n Lp Li start_col (thread_end n bins tid) ;;
  Ok (flat_map (fun i => map (fun j => (j, i + start_col)) (seq cuts.[i] (cuts.[S i] - cuts.[i])))
        (seq 0 (length cuts - 1))).

(** one thread performs all its stores *)
Definition do_writes (ws : list (nat * nat)) (mem : list nat) : res (list nat) :=
  foreach ws (fun w mem => wr mem (fst w) (snd w)) mem.

(** The stores of all threads, interleaved: [sched] tells which thread stores next (a
    finished thread is skipped); when it ends the others finish one after the other.  Every
    interleaving is one of these.  The threads' stores can go to the same cell without
    synchronisation, which C++ leaves undefined; here a store is atomic. *)
Fixpoint run_writes (sched : list nat) (wss : list (list (nat * nat))) (mem : list nat) : res (list nat) :=
  match sched with
  | [] => foreach wss do_writes mem
  | t :: rest =>
      match wss.[t] with
      | [] => run_writes rest wss mem
      | w :: ws => mem' <- wr mem (fst w) (snd w) ;; run_writes rest (upd wss t ws) mem'
      end
  end.

(** 2033-2102.  With OpenMP there are [bins] threads; without it the code sets bins = 1 and
    tid = 1 (2042-2043). *)
Definition clique_labels (omp : bool) (bins : nat) (sched : list nat) (n : nat) (Lp Li : list nat) : res (list nat) :=
  if omp then
    wss <- for_ 0 bins (fun tid acc => ws <- thread_writes n Lp Li bins tid ;; Ok (acc ++ [ws])) [] ;;
    run_writes sched wss (repeat 0 n)
  else
    ws <- thread_writes n Lp Li 1 1 ;; do_writes ws (repeat 0 n).

(** 2104-2113: a clique ends where the label changes *)
Definition clique_cuts (labels : list nat) : list nat :=
  let '(cuts, cnt, _) := fold_left (fun st i => let '(cuts, cnt, prev) := st in
      (if i =? prev then cuts else cuts ++ [cnt], S cnt, i)) labels ([0], 0, 0) in
  cuts ++ [cnt].

(** * The graph without cliques (2154-2174) *)

Definition no_clique (n : nat) (cuts Lp Li : list nat) : res (list nat * list nat) :=
  '(p, s, e) <- for_ 0 (length cuts - 1) (fun i st =>
      c0 <- rd cuts i ;; c1 <- rd cuts (S i) ;;
      '(p, s, e) <- for_ c0 (c1 - 1) (fun j st => let '(p, s, e) := st in
          p' <- wr p j e ;; Ok (p', s ++ [j] ++ [S j], e + 2)) st ;;
      _ <- (if c1 =? 0 then Err OOB else Ok tt) ;;
      let last_node := c1 - 1 in
      p' <- wr p last_node e ;;
      a <- rd Lp last_node ;; b <- rd Lp (S last_node) ;;
      '(s', e') <- for_ a b (fun j st => let '(s, e) := st in x <- rd Li j ;; Ok (s ++ [x], S e)) (s, e) ;;
      Ok (p', s', e')) (repeat 0 (S n), [], 0) ;;
  p' <- wr p n e ;;
  Ok (p', s).

(** * Transitive edges *)

(** 2184-2196: children of [i] that are also children of its child [k], by merging; the state
    is (deleted, l1, l2) *)
Definition merge_children (s : list nat) (u1 u2 : nat) (del : list bool) (l1 l2 : nat) : res (list bool) :=
  '(del', _, _) <- while_ (S (u1 - l1 + (u2 - l2)))
    (fun st : list bool * nat * nat => let '(_, l1, l2) := st in Ok ((l1 <? u1) && (l2 <? u2)))
    (fun st => let '(del, l1, l2) := st in
       x <- rd s l1 ;; y <- rd s l2 ;;
       if x =? y then del' <- wr del l1 true ;; Ok (del', S l1, S l2)
       else if x <? y then Ok (del, S l1, l2)
       else Ok (del, l1, S l2)) (del, l1, l2) ;;
  Ok del'.

(** 2176-2199.  Parallel over [i]; every iteration stores only to the entries of its own
    column, so the order does not matter. *)
Definition transitive_edges (n : nat) (p s : list nat) : res (list bool) :=
  for_ 0 n (fun i del =>
    a <- rd p i ;; b <- rd p (S i) ;;
    for_ (S a) b (fun k_ptr del =>
      k <- rd s k_ptr ;; c <- rd p k ;; d <- rd p (S k) ;;
      merge_children s b d del (S a) (S c)) del) (repeat false (length s)).

(** std::lower_bound on v[0..n): binary search by halving *)
Definition lower_bound (v : list nat) (x : nat) : res nat :=
  '(first, _) <- while_ (S (length v)) (fun st : nat * nat => Ok (negb (snd st =? 0)))
    (fun st => let '(first, len) := st in
       let half := len / 2 in
       y <- rd v (first + half) ;;
       Ok (if y <? x then (S (first + half), len - half - 1) else (first, half))) (0, length v) ;;
  Ok first.

(** 2217-2239, the branch without cliques.  A column without entries makes the size of
    [child] negative, which throws. *)
Definition transitive_edges_slow (n nnz : nat) (Lp Li : list nat) : res (list bool) :=
  for_ 0 n (fun i del =>
    a <- rd Lp i ;; b <- rd Lp (S i) ;;
    if b =? a then Err Throw else
    child <- for_ (S a) b (fun k_ptr ch => k <- rd Li k_ptr ;; Ok (ch ++ [k])) [] ;;
    for_ (S a) b (fun k_ptr del =>
      k <- rd Li k_ptr ;; c <- rd Lp k ;; d <- rd Lp (S k) ;;
      for_ (S c) d (fun j_ptr del =>
        j <- rd Li j_ptr ;;
        id <- lower_bound child j ;;
        if id <? length child then
          y <- rd child id ;;
          if y <=? j then wr del (S a + id) true else Ok del
        else Ok del) del) del) (repeat false nnz).

(** * Compaction (2201-2213 and 2244-2256) *)

(** vector::resize *)
Definition resize (v : list nat) (m x : nat) : list nat :=
  if length v <=? m then v ++ repeat x (m - length v) else firstn m v.

(** [ptr0], [set0]: what the caller's vectors hold before the call; the entries are appended *)
Definition kept_edges (n : nat) (p s : list nat) (del : list bool) (ptr0 set0 : list nat) : res (list nat * list nat) :=
  '(ptr, set, _) <- for_ 0 n (fun i st =>
      a <- rd p i ;; b <- rd p (S i) ;;
      '(ptr, set, e) <- for_ a b (fun k_ptr st => let '(ptr, set, e) := st in
          d <- rd del k_ptr ;;
          if (d : bool) then Ok (ptr, set, e)
          else k <- rd s k_ptr ;; Ok (ptr, set ++ [k], S e)) st ;;
      ptr' <- wr ptr (S i) e ;; Ok (ptr', set, e)) (resize ptr0 (S n) 0, set0, 0) ;;
  Ok (ptr, set).

Definition partialSparsification (omp : bool) (bins : nat) (sched : list nat) (n nnz : nat) (Lp Li : list nat)
    (ptr0 set0 : list nat) (cliqueSimplification : bool) : res (list nat * list nat) :=
  if cliqueSimplification then
    labels <- clique_labels omp bins sched n Lp Li ;;
    '(p, s) <- no_clique n (clique_cuts labels) Lp Li ;;
    del <- transitive_edges n p s ;;
    kept_edges n p s del ptr0 set0
  else
    del <- transitive_edges_slow n nnz Lp Li ;;
    kept_edges n Lp Li del ptr0 set0.

(** a clique {0,1,2} with the common children 3 and 4, and 3 -> 4 *)
Example sparse_run :
  let Lp := [0;5;9;12;14;15] in let Li := [0;1;2;3;4; 1;2;3;4; 2;3;4; 3;4; 4] in
  partialSparsification true 1 [] 5 15 Lp Li [] [] true = Ok ([0;2;4;6;8;9], [0;1; 1;2; 2;3; 3;4; 4]) /\
  partialSparsification true 2 [1;1;0;1] 5 15 Lp Li [] [] true = Ok ([0;2;4;6;8;9], [0;1; 1;2; 2;3; 3;4; 4]) /\
  partialSparsification true 1 [] 5 15 Lp Li [] [] false = Ok ([0;2;4;6;8;9], [0;1; 1;2; 2;3; 3;4; 4]).
Proof. cbv zeta. splits; vm_compute; reflexivity. Qed.
