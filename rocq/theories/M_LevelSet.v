(** Model of the wavefront (level set) builders:
    - HDAGG::build_levelSet_CSC, src/hdagg/hdagg.cpp 16-69
    - sym_lib::build_levelSet_CSC (allocating), utils/sparse_inspector.cpp 15-60
    - sym_lib::build_levelSet_CSC (in place), utils/sparse_inspector.cpp 958-1010
    - sym_lib::buildLevelSet_CSC_Queue, utils/sparse_inspector.cpp 63-123
    - sym_lib::computingLevelSet_CSC, utils/sparse_inspector.cpp 1014-1026
    - HDAGG::computingNode2Level, src/hdagg/hdagg.cpp 315-329 *)
From Verif Require Export Base.

(** hdagg.cpp 21,23-27: inDegree = new int[n](); for (i < Lp[n]) inDegree[Li[i]]++ .
    Degrees are integers, as in the code. *)
Definition init_degree (n : nat) (Lp Li : list nat) : res (list Z) :=
  nnz <- rd Lp n ;;
  for_ 0 nnz (fun i deg => v <- rd Li i ;; d <- rd deg v ;; wr deg v (d + 1)%Z)
       (repeat 0%Z n).

(** hdagg.cpp 31-40: scan begin..end, append the unvisited nodes of degree 1.
    [e1] is the C++ variable end plus one. State: visited, levelSet,
    node_to_level, cur_levelCol. *)
Definition scan_level (b e1 cur : nat) (deg : list Z)
    (st : list bool * list nat * list nat * nat) : res (list bool * list nat * list nat * nat) :=
  for_ b e1 (fun i st =>
    let '(vis, lset, n2l, col) := st in
    d <- rd deg i ;;
    v <- rd vis i ;;
    if (d =? 1)%Z && negb v then
      vis' <- wr vis i true ;;
      lset' <- wr lset col i ;;
      n2l' <- wr n2l i cur ;;
      Ok (vis', lset', n2l', S col)
    else Ok st) st.

(** hdagg.cpp 46-51: while (inDegree[begin] == 1) { begin++; if (begin >= n) break; } .
    State: begin and whether the break was taken. *)
Definition advance_begin (n : nat) (deg : list Z) (b : nat) : res nat :=
  r <- while_ (S n)
    (fun s : nat * bool => if snd s then Ok false else d <- rd deg (fst s) ;; Ok (d =? 1)%Z)
    (fun s => let b' := S (fst s) in Ok (b', n <=? b'))
    (b, false) ;;
  Ok (fst r).

(** hdagg.cpp 52-53: while (inDegree[end] == 1 && begin <= end) end-- ; with
    [e1] = end + 1, reading index end = -1 is out of bounds. *)
Definition retreat_end (n : nat) (deg : list Z) (b e1 : nat) : res nat :=
  while_ (S n)
    (fun e1 => match e1 with
               | 0 => Err OOB
               | S e => d <- rd deg e ;; Ok ((d =? 1)%Z && (b <=? e))
               end)
    (fun e1 => Ok (e1 - 1)) e1.

(** hdagg.cpp 55-63: remove the edges of the nodes of the new level *)
Definition remove_edges (Lp Li lset : list nat) (lo hi : nat) (deg : list Z) : res (list Z) :=
  for_ lo hi (fun l deg =>
    cc <- rd lset l ;;
    k0 <- rd Lp cc ;;
    k1 <- rd Lp (S cc) ;;
    for_ k0 k1 (fun j deg =>
      v <- rd Li j ;;
      if negb (v =? cc) then d <- rd deg v ;; wr deg v (d - 1)%Z else Ok deg) deg) deg.

(** the local variables of the outer loop; [ls_fail] records [return -1] *)
Record ls_state := mkLS {
  ls_begin : nat; ls_end1 : nat; ls_cur : nat; ls_col : nat;
  ls_deg : list Z; ls_vis : list bool;
  ls_ptr : list nat; ls_set : list nat; ls_n2l : list nat; ls_fail : bool }.

(** hdagg.cpp 30-65: one iteration of the outer while *)
Definition ls_round (n : nat) (Lp Li : list nat) (s : ls_state) : res ls_state :=
  '(vis, lset, n2l, col) <- scan_level (ls_begin s) (ls_end1 s) (ls_cur s) (ls_deg s)
                              (ls_vis s, ls_set s, ls_n2l s, ls_col s) ;;
  let cur := S (ls_cur s) in
  if n <=? cur then
    Ok (mkLS (ls_begin s) (ls_end1 s) cur col (ls_deg s) vis (ls_ptr s) lset n2l true)
  else
    ptr <- wr (ls_ptr s) cur col ;;
    b <- advance_begin n (ls_deg s) (ls_begin s) ;;
    e1 <- retreat_end n (ls_deg s) b (ls_end1 s) ;;
    lo <- rd ptr (cur - 1) ;;
    hi <- rd ptr cur ;;
    deg <- remove_edges Lp Li lset lo hi (ls_deg s) ;;
    Ok (mkLS b e1 cur col deg vis ptr lset n2l false).

(** hdagg.cpp 16-69. The caller's arrays are inputs and outputs; the result is
    the returned int. *)
Definition build_levelSet_CSC (n : nat) (Lp Li levelPtr levelSet node_to_level : list nat)
  : res (Z * (list nat * list nat * list nat)) :=
  deg <- init_degree n Lp Li ;;
  s <- while_ (S n)
         (fun s => Ok (negb (ls_fail s) && (ls_begin s <? ls_end1 s)))
         (ls_round n Lp Li)
         (mkLS 0 n 0 0 deg (repeat false n) levelPtr levelSet node_to_level false) ;;
  Ok (if ls_fail s then (-1)%Z else Z.of_nat (ls_cur s), (ls_ptr s, ls_set s, ls_n2l s)).

(** sparse_inspector.cpp 26-33 and 972-983: the same scan without node_to_level *)
Definition scan_level2 (b e1 : nat) (deg : list Z)
    (st : list bool * list nat * nat) : res (list bool * list nat * nat) :=
  for_ b e1 (fun i st =>
    let '(vis, lset, col) := st in
    d <- rd deg i ;;
    v <- rd vis i ;;
    if (d =? 1)%Z && negb v then
      vis' <- wr vis i true ;;
      lset' <- wr lset col i ;;
      Ok (vis', lset', S col)
    else Ok st) st.

(** local variables of the sym_lib variants *)
Record ls2_state := mkLS2 {
  l2_begin : nat; l2_end1 : nat; l2_cur : nat; l2_col : nat;
  l2_deg : list Z; l2_vis : list bool;
  l2_ptr : list nat; l2_set : list nat; l2_fail : bool }.

(** sparse_inspector.cpp 25-55 and 971-1005: one iteration of the outer while *)
Definition ls2_round (n : nat) (Lp Li : list nat) (s : ls2_state) : res ls2_state :=
  '(vis, lset, col) <- scan_level2 (l2_begin s) (l2_end1 s) (l2_deg s)
                              (l2_vis s, l2_set s, l2_col s) ;;
  let cur := S (l2_cur s) in
  if n <=? cur then
    Ok (mkLS2 (l2_begin s) (l2_end1 s) cur col (l2_deg s) vis (l2_ptr s) lset true)
  else
    ptr <- wr (l2_ptr s) cur col ;;
    b <- advance_begin n (l2_deg s) (l2_begin s) ;;
    e1 <- retreat_end n (l2_deg s) b (l2_end1 s) ;;
    lo <- rd ptr (cur - 1) ;;
    hi <- rd ptr cur ;;
    deg <- remove_edges Lp Li lset lo hi (l2_deg s) ;;
    Ok (mkLS2 b e1 cur col deg vis ptr lset false).

(** sparse_inspector.cpp 958-1010: in-place variant *)
Definition build_levelSet_CSC_inplace (n : nat) (Lp Li levelPtr levelSet : list nat)
  : res (Z * (list nat * list nat)) :=
  deg <- init_degree n Lp Li ;;
  s <- while_ (S n)
         (fun s => Ok (negb (l2_fail s) && (l2_begin s <? l2_end1 s)))
         (ls2_round n Lp Li)
         (mkLS2 0 n 0 0 deg (repeat false n) levelPtr levelSet false) ;;
  Ok (if l2_fail s then (-1)%Z else Z.of_nat (l2_cur s), (l2_ptr s, l2_set s)).

(** sparse_inspector.cpp 15-60: allocating variant, levelPtr = new int[n+1](),
    levelSet = new int[n]() *)
Definition build_levelSet_CSC_alloc (n : nat) (Lp Li : list nat)
  : res (Z * (list nat * list nat)) :=
  build_levelSet_CSC_inplace n Lp Li (repeat 0 (n + 1)) (repeat 0 n).

(** std::vector::resize(m): keep the first m elements, append zeros *)
Definition resize (l : list nat) (m : nat) : list nat :=
  firstn m l ++ repeat 0 (m - length l).

(** sparse_inspector.cpp 1014-1026: LevelPtr.resize(n+1); LevelSet.resize(n);
    nlevels = build_levelSet_CSC(...) (the timing is dropped) *)
Definition computingLevelSet_CSC (n : nat) (Lp Li LevelPtr LevelSet : list nat)
  : res (Z * (list nat * list nat)) :=
  build_levelSet_CSC_inplace n Lp Li (resize LevelPtr (n + 1)) (resize LevelSet n).

(** hdagg.cpp 315-329: Node2Level.resize(num_nodes); tabulate the slices. The
    loop over nlevels = -1 is empty. *)
Definition computingNode2Level (LevelPtr LevelSet : list nat) (nlevels : Z) (num_nodes : nat)
    (Node2Level : list nat) : res (list nat) :=
  for_ 0 (Z.to_nat nlevels) (fun lvl n2l =>
    k0 <- rd LevelPtr lvl ;;
    k1 <- rd LevelPtr (S lvl) ;;
    for_ k0 k1 (fun j n2l => node <- rd LevelSet j ;; wr n2l node lvl) n2l)
    (resize Node2Level num_nodes).

(** sparse_inspector.cpp 85-91: for (i < n) if (inDegree[i] == 1) dq.push_back(i) *)
Definition queue_init (n : nat) (deg : list Z) : res (list nat) :=
  for_ 0 n (fun i dq => d <- rd deg i ;; Ok (if (d =? 1)%Z then dq ++ [i] else dq)) [].

(** sparse_inspector.cpp 93-100: move the whole queue to levelSet. The deque is
    drained in order, so this appends its elements. *)
Definition queue_drain (dq : list nat) (lset : list nat) (col : nat) : res (list nat * nat) :=
  foreach dq (fun idx st => let '(lset, col) := st in
    lset' <- wr lset col idx ;; Ok (lset', S col)) (lset, col).

(** sparse_inspector.cpp 105-113: remove edges (the first entry of a column is
    skipped as the diagonal) and enqueue nodes whose degree drops to 1 *)
Definition queue_remove (Lp Li lset : list nat) (lo hi : nat) (st : list Z * list nat)
  : res (list Z * list nat) :=
  for_ lo hi (fun l st =>
    cc <- rd lset l ;;
    k0 <- rd Lp cc ;;
    k1 <- rd Lp (S cc) ;;
    for_ (S k0) k1 (fun j st =>
      let '(deg, dq) := st in
      v <- rd Li j ;;
      d <- rd deg v ;;
      deg' <- wr deg v (d - 1)%Z ;;
      d' <- rd deg' v ;;
      Ok (deg', if (d' =? 1)%Z then dq ++ [v] else dq)) st) st.

Record lq_state := mkLQ {
  lq_dq : list nat; lq_cur : nat; lq_col : nat; lq_deg : list Z;
  lq_ptr : list nat; lq_set : list nat }.

(** sparse_inspector.cpp 93-114: one iteration of while (dq.size() != 0) *)
Definition lq_round (Lp Li : list nat) (s : lq_state) : res lq_state :=
  '(lset, col) <- queue_drain (lq_dq s) (lq_set s) (lq_col s) ;;
  let cur := S (lq_cur s) in
  ptr <- wr (lq_ptr s) cur col ;;
  lo <- rd ptr (cur - 1) ;;
  hi <- rd ptr cur ;;
  '(deg, dq) <- queue_remove Lp Li lset lo hi (lq_deg s, []) ;;
  Ok (mkLQ dq cur col deg ptr lset).

(** sparse_inspector.cpp 63-123 *)
Definition buildLevelSet_CSC_Queue (n : nat) (Lp Li levelPtr levelSet : list nat)
  : res (nat * (list nat * list nat)) :=
  deg <- init_degree n Lp Li ;;
  dq <- queue_init n deg ;;
  s <- while_ (S n) (fun s => Ok (negb (length (lq_dq s) =? 0))) (lq_round Lp Li)
         (mkLQ dq 0 0 deg levelPtr levelSet) ;;
  Ok (lq_cur s, (lq_ptr s, lq_set s)).

(** a wavefront graph: 0 -> 2, 1 -> 2, 2 -> 3 and an isolated node 4 *)
Example levelset_run :
  build_levelSet_CSC 5 [0;2;4;6;7;8] [0;2;1;2;2;3;3;4] (repeat 0 6) (repeat 0 5) (repeat 0 5)
  = Ok (3%Z, ([0;3;4;5;0;0], [0;1;4;2;3], [0;0;1;2;0])).
Proof. vm_compute. reflexivity. Qed.
