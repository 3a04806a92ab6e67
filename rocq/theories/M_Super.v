(** Models of supernode detection and the blocked format: utils/BCSCMatrix.cpp,
    include/aggregation/BCSCMatrix.h, and class SuperNodal of utils/SuperNodalTools.cpp 286-481.
    (SuperNodalTools.cpp is in the repository but not in CMakeLists.txt.)

    Differences of pointers are truncated at 0; the pointers of a matrix do not decrease. *)
From Verif Require Import Base Lib M_PostOrder.

(** * Detection *)

(** BCSCMatrix.cpp 41-50, SuperNodalTools.cpp 345-351, 404-410: compare [k] entries from [a] and from [b] *)
Definition same_entries (Li : list nat) (a b k : nat) : res bool :=
  forb_ 0 k (fun j _ => x <- rd Li (a + j) ;; y <- rd Li (b + j) ;;
    Ok (if x =? y then (false, true) else (true, false))) true.

(** may [last] join the run that starts at [first]?  Columns of a lower triangular matrix:
    BCSCMatrix.cpp 31-50, SuperNodalTools.cpp 394-410.  The number of entries of [first] minus
    [last - first] may be negative; it is compared with a count, so the comparison is written as a sum.
    With [checks] the assertion of SuperNodalTools.cpp 402 is included. *)
Definition col_joins (checks : bool) (Lp Li : list nat) (first last : nat) : res bool :=
  let diff := last - first in
  f0 <- rd Lp first ;; f1 <- rd Lp (S first) ;; l0 <- rd Lp last ;; l1 <- rd Lp (S last) ;;
  if negb (f1 - f0 =? (l1 - l0) + diff) then Ok false
  else if checks && (l1 - l0 =? 0) then Err Throw
  else same_entries Li (f0 + diff) l0 (l1 - l0).

(** SuperNodalTools.cpp 335-351: rows of a lower triangular matrix *)
Definition row_joins (Lp Li : list nat) (first last : nat) : res bool :=
  let diff := last - first in
  f0 <- rd Lp first ;; f1 <- rd Lp (S first) ;; l0 <- rd Lp last ;; l1 <- rd Lp (S last) ;;
  if negb (l1 - l0 =? (f1 - f0) + diff) then Ok false
  else if f1 - f0 =? 0 then Err Throw
  else same_entries Li f0 l0 (f1 - f0).

(** the loops 30-57 (BCSC), 334-361 and 393-420: how many nodes after [first] join, at most [limit] *)
Definition run_length (joins : nat -> nat -> res bool) (n limit first : nat) : res nat :=
  '(k, _) <- while_ (S n)
    (fun st : nat * bool => let '(k, stop) := st in Ok (negb stop && (first + S k <? n) && (k <? limit)))
    (fun st => let '(k, _) := st in
       b <- joins first (first + S k) ;; Ok (if b : bool then (S k, false) else (k, true))) (0, false) ;;
  Ok k.

(** BCSCMatrix.cpp 8-62, 108-117 with isLower = true.  temp_nodes has [n] cells; result:
    M->supernodes, whose last cell is n.  (pre is i, cur is pre + sim + 1.) *)
Definition bcsc_supernodes_lower (n : nat) (Ap Ai : list nat) (limit : nat) : res (list nat) :=
  let limit := if limit =? 0 then n else limit in
  '(nodes, _) <- while_ (S n) (fun st : list nat * nat => Ok (snd st <? n))
    (fun st => let '(nodes, i) := st in
       _ <- (if length nodes <? n then Ok tt else Err OOB) ;;
       sim <- run_length (col_joins false Ap Ai) n limit i ;;
       Ok (nodes ++ [i], S (i + sim))) ([], 0) ;;
  Ok (nodes ++ [n]).

(** BCSCMatrix.cpp 84-93 *)
Definition same_entries_back (Li : list nat) (a b k : nat) : res bool :=
  forb_ 0 k (fun j _ =>
    if (a <? S j) || (b <? S j) then Err OOB else
    x <- rd Li (a - S j) ;; y <- rd Li (b - S j) ;;
    Ok (if x =? y then (false, true) else (true, false))) true.

Definition col_joins_back (Lp Li : list nat) (pre cur : nat) : res bool :=
  let diff := pre - cur in
  f0 <- rd Lp pre ;; f1 <- rd Lp (S pre) ;; l0 <- rd Lp cur ;; l1 <- rd Lp (S cur) ;;
  if negb (f1 - f0 =? (l1 - l0) + diff) then Ok false
  else same_entries_back Li (f1 - diff) l1 (l1 - l0).

(** BCSCMatrix.cpp 63-117 with isLower = false: columns from the last to the first; [i1] is i + 1.  The
    array ends with -1. *)
Definition bcsc_supernodes_upper (n : nat) (Ap Ai : list nat) (limit : nat) : res (list Z) :=
  let limit := if limit =? 0 then n else limit in
  '(nodes, _) <- while_ (S n) (fun st : list Z * nat => Ok (0 <? snd st))
    (fun st => let '(nodes, i1) := st in
       let i := i1 - 1 in
       _ <- (if length nodes <? n then Ok tt else Err OOB) ;;
       '(sim, _) <- while_ (S n)
         (fun st : nat * bool => let '(k, stop) := st in Ok (negb stop && (S k <=? i) && (k <? limit)))
         (fun st => let '(k, _) := st in
            b <- col_joins_back Ap Ai i (i - S k) ;; Ok (if b : bool then (S k, false) else (k, true))) (0, false) ;;
       Ok (nodes ++ [Z.of_nat i], i - sim)) ([], n) ;;
  Ok (nodes ++ [-1]%Z).

(** SuperNodalTools.cpp 286-309: the limit; a limit below 1 means n *)
Definition sup_limit (n : nat) (limit : Z) : nat := if (limit <? 1)%Z then n else Z.to_nat limit.

(** 388-431 and 329-372.  [width] is run length plus one; [off] computes the pushed off_diag_size, its
    assertions (366, 425) are in [offc].  Result: supernodes_ptr, off_diag_size. *)
Definition sup_runs (joins : nat -> nat -> res bool) (off : nat -> nat -> res Z) (n limit : nat) : res (list nat * list Z) :=
  '(ptr, offs, _) <- while_ (S n) (fun st : list nat * list Z * nat => Ok (snd st <? n))
    (fun st => let '(ptr, offs, first) := st in
       k <- run_length joins n (limit - 1) first ;;
       let width := S k in
       o <- off first width ;;
       Ok (ptr ++ [first + width], offs ++ [o], first + width)) ([0], [], 0) ;;
  lastp <- back ptr ;;
  if lastp =? n then Ok (ptr, offs) else Err Throw.

(** 425-426 *)
Definition csc_off (Lp : list nat) (first width : nat) : res Z :=
  f0 <- rd Lp first ;; f1 <- rd Lp (S first) ;;
  let d := (Z.of_nat f1 - Z.of_nat f0 - Z.of_nat width)%Z in
  if (d <? 0)%Z then Err Throw else Ok (d - 1)%Z.

(** 366-367 *)
Definition csr_off (Lp : list nat) (first width : nat) : res Z :=
  f0 <- rd Lp first ;; f1 <- rd Lp (S first) ;;
  let d := (Z.of_nat f1 - Z.of_nat f0 - 1)%Z in
  if (d <? 0)%Z then Err Throw else Ok d.

(** 375-379, 434-438 *)
Definition node_to_sup (n : nat) (ptr : list nat) : res (list nat) :=
  for_ 0 (length ptr - 1) (fun s m => a <- rd ptr s ;; b <- rd ptr (S s) ;; for_ a b (fun v m => wr m v s) m) (repeat 0 n).

Inductive mtype := CSC_TYPE | CSR_TYPE.

(** 323-439; [Cp], [Ci] are the columns, [Rp], [Ri] the rows.  Result: supernodes_ptr, off_diag_size, node_to_sup *)
Definition createSupernode (ty : mtype) (n : nat) (Cp Ci Rp Ri : list nat) (limit : Z) : res (list nat * list Z * list nat) :=
  '(ptr, offs) <- (match ty with
     | CSC_TYPE => sup_runs (col_joins true Cp Ci) (csc_off Cp) n (sup_limit n limit)
     | CSR_TYPE => sup_runs (row_joins Rp Ri) (csr_off Rp) n (sup_limit n limit)
     end) ;;
  m <- node_to_sup n ptr ;;
  Ok (ptr, offs, m).

(** * Dependence graph of the supernodes *)

(** 462-467: supernodes below, and itself; as a set *)
Definition sup_children (Lp Li m : list nat) (s sb se : nat) : res (list nat) :=
  a <- rd Lp sb ;; b <- rd Lp se ;;
  if b <=? a then Err Throw else
  l <- for_ a b (fun q acc => i <- rd Li q ;; if se <=? i then t <- rd m i ;; Ok (acc ++ [t]) else Ok acc) [] ;;
  Ok (uniq (isort (l ++ [s]))).

(** 449-481.  [nnz] is A_CSR->nnz, the size of DAG_set before it is cut.  Copying a set and sorting the
    copy is storing the sorted list. *)
Definition createDepDAG (nnz : nat) (Lp Li ptr m : list nat) : res (list nat * list nat) :=
  '(dp, ds) <- for_ 0 (length ptr - 1) (fun s st => let '(dp, ds) := st in
      sb <- rd ptr s ;; se <- rd ptr (S s) ;;
      ch <- sup_children Lp Li m s sb se ;;
      bk <- back dp ;;
      '(ds, _) <- foreach ch (fun x '(ds, e) => ds <- wr ds e x ;; Ok (ds, S e)) (ds, bk) ;;
      Ok (dp ++ [bk + length ch], ds)) ([0], repeat 0 nnz) ;;
  e <- back dp ;;
  Ok (dp, firstn e ds ++ repeat 0 (e - nnz)).

(** 286-321: the constructor.  [rows] is [None] for a null A_CSR: createDepDAG reads A_CSR->nnz for
    either type.  Result: supernodes_ptr, DAG_ptr, DAG_set. *)
Definition superNodal (ty : mtype) (n : nat) (Cp Ci : list nat) (rows : option (list nat * list nat * nat)) (limit : Z)
  : res (list nat * (list nat * list nat)) :=
  match rows with
  | None =>
      match ty with
      | CSC_TYPE => _ <- createSupernode CSC_TYPE n Cp Ci [] [] limit ;; Err OOB
      | CSR_TYPE => Err OOB
      end
  | Some (Rp, Ri, nnz) =>
      '(ptr, _, m) <- createSupernode ty n Cp Ci Rp Ri limit ;;
      D <- createDepDAG nnz Cp Ci ptr m ;;
      Ok (ptr, D)
  end.

(** * The blocked format *)

Section BCSC.
Context {V : Type} `{DV : Dflt V}.

(** def.h 256-280 without m and n *)
Record bcsc := mkBCSC { b_nnz : nat; b_p : list nat; b_i : list nat; b_x : list V; b_nodes : nat; b_super : list nat; b_nrows : list nat }.

(** 136-147 and 176-186: the rows of the columns of a supernode, each once, in order of appearance.
    [inb] is in_block; [cap] is the size of temprows (the priority queue has no bound). *)
Definition gather_rows (cap : option nat) (Ap Ai : list nat) (sb se : nat) (inb : list bool) : res (list bool * list nat) :=
  for_ sb se (fun j st => a <- rd Ap j ;; b <- rd Ap (S j) ;;
    for_ a b (fun q '(inb, rows) =>
      r <- rd Ai q ;; v <- rd inb r ;;
      if v : bool then Ok (inb, rows)
      else inb <- wr inb r true ;;
           _ <- (match cap with Some c => if length rows <? c then Ok tt else Err OOB | None => Ok tt end) ;;
           Ok (inb, rows ++ [r])) st) (inb, []).

(** 148-149, 191-197 *)
Definition clear_rows (rows : list nat) (inb : list bool) : res (list bool) := foreach rows (fun r inb => wr inb r false) inb.

(** 120-156 calcSize: M->p has n + 1 cells.  The width of a block is a difference of ints; supernode
    boundaries of a partition increase. *)
Definition calcSize (n : nat) (Ap Ai : list nat) (nodes : nat) (super : list nat) : res (nat * list nat) :=
  '(nnz, p, _) <- for_ 0 nodes (fun i st => let '(nnz, p, inb) := st in
      p <- wr p i nnz ;;
      se <- rd super (S i) ;; sb <- rd super i ;;
      '(inb, rows) <- gather_rows (Some n) Ap Ai sb se inb ;;
      inb <- clear_rows rows inb ;;
      Ok (nnz + length rows * (se - sb), p, inb)) (0, repeat 0 (n + 1), repeat false n) ;;
  p <- wr p nodes nnz ;;
  Ok (nnz, p).

(** 200-213: one column.  [row_i == Ai[index]] is evaluated before [index < Ap[j+1]]. *)
Definition format_column (Ap Ai : list nat) (Ax : list V) (rows : list nat) (j : nat) (st : list nat * list V * nat) : res (list nat * list V * nat) :=
  index <- rd Ap j ;;
  '(mi, mx, counter, _) <- foreach rows (fun r st => let '(mi, mx, counter, index) := st in
      mi <- wr mi counter r ;;
      y <- rd Ai index ;;
      e <- rd Ap (S j) ;;
      if (r =? y) && (index <? e)
      then v <- rd Ax index ;; mx <- wr mx counter v ;; Ok (mi, mx, S counter, S index)
      else mx <- wr mx counter dflt ;; Ok (mi, mx, S counter, index)) (st, index) ;;
  Ok (mi, mx, counter).

(** 159-218 createFormat.  tempvec has n cells.  The queue yields the rows in increasing order. *)
Definition createFormat (n : nat) (Ap Ai : list nat) (Ax : list V) (nnz nodes : nat) (super : list nat) : res (list nat * list V * list nat) :=
  '(mi, mx, _, nrows, _) <- for_ 0 nodes (fun i st => let '(mi, mx, counter, nrows, inb) := st in
      sb <- rd super i ;; se <- rd super (S i) ;;
      '(inb, rows) <- gather_rows None Ap Ai sb se inb ;;
      nrows <- wr nrows i (length rows) ;;
      let rows := isort rows in
      inb <- clear_rows rows inb ;;
      _ <- (if length rows <=? n then Ok tt else Err OOB) ;;
      '(mi, mx, counter) <- for_ sb se (format_column Ap Ai Ax rows) (mi, mx, counter) ;;
      Ok (mi, mx, counter, nrows, inb)) (repeat 0 nnz, repeat dflt nnz, 0, repeat 0 nodes, repeat false n) ;;
  Ok (mi, mx, nrows).

(** BCSCMatrix.h 29-35 generateBCSC, 44-50 the constructor with given supernodes *)
Definition newBCSC (n : nat) (Ap Ai : list nat) (Ax : list V) (nodes : nat) (super : list nat) : res bcsc :=
  super <- (if nodes + 1 <=? length super then Ok (firstn (nodes + 1) super) else Err OOB) ;;
  '(nnz, p) <- calcSize n Ap Ai nodes super ;;
  '(mi, mx, nrows) <- createFormat n Ap Ai Ax nnz nodes super ;;
  Ok (mkBCSC nnz p mi mx nodes super nrows).

(** BCSCMatrix.h 38-42: the constructor that detects supernodes *)
Definition newBCSC_auto (n : nat) (Ap Ai : list nat) (Ax : list V) : res bcsc :=
  super <- bcsc_supernodes_lower n Ap Ai n ;;
  let nodes := length super - 1 in
  '(nnz, p) <- calcSize n Ap Ai nodes super ;;
  '(mi, mx, nrows) <- createFormat n Ap Ai Ax nnz nodes super ;;
  Ok (mkBCSC nnz p mi mx nodes super nrows).

(** * The supernodal graph of a blocked matrix *)

(** 225-232: the supernode of each column *)
Definition supers_of (n nodes : nat) (super : list nat) : res (list nat) :=
  '(sup, _) <- for_ 0 nodes (fun i st =>
      while_ (S n)
        (fun st : list nat * nat => let '(_, c) := st in a <- rd super i ;; b <- rd super (S i) ;; Ok ((a <=? c) && (c <? b)))
        (fun st => let '(sup, c) := st in sup <- wr sup c i ;; Ok (sup, S c)) st) (repeat 0 n, 0) ;;
  Ok sup.

(** 241-252, 263-277: the supernodes met in the rows of block [i], each once; temp has [nodes] cells *)
Definition block_rows (nodes : nat) (M : bcsc) (sup : list nat) (i : nat) (inpl : list bool) : res (list bool * list nat) :=
  nr <- rd (b_nrows M) i ;;
  '(inpl, t) <- for_ 0 nr (fun r st => let '(inpl, t) := st in
      b <- rd (b_p M) i ;; x <- rd (b_i M) (b + r) ;; row <- rd sup x ;; v <- rd inpl row ;;
      if v : bool then Ok (inpl, t)
      else inpl <- wr inpl row true ;; (if length t <? nodes then Ok (inpl, t ++ [row]) else Err OOB)) (inpl, []) ;;
  inpl <- clear_rows t inpl ;;
  Ok (inpl, t).

(** 221-289 compressed_BCSC_to_CSC: the index array has [nnz] cells, counted in 240-253 *)
Definition compressed_BCSC_to_CSC (n : nat) (M : bcsc) : res (list nat * list nat) :=
  let nodes := b_nodes M in
  sup <- supers_of n nodes (b_super M) ;;
  '(nnz, inpl) <- for_ 0 nodes (fun i st => let '(nnz, inpl) := st in
      '(inpl, t) <- block_rows nodes M sup i inpl ;; Ok (nnz + length t, inpl)) (0, repeat false nodes) ;;
  Ap <- wr (repeat 0 (nodes + 1)) 0 0 ;;
  '(Ap, Ai, _, _) <- for_ 0 nodes (fun j st => let '(Ap, Ai, e, inpl) := st in
      a <- rd Ap j ;;
      '(inpl, t) <- block_rows nodes M sup j inpl ;;
      '(Ai, e) <- foreach t (fun row '(Ai, e) => Ai <- wr Ai e row ;; Ok (Ai, S e)) (Ai, e) ;;
      Ai <- wr Ai e (j + nodes) ;;
      Ap <- wr Ap (S j) (a + length t + 1) ;;
      Ok (Ap, Ai, S e, inpl)) (Ap, repeat 0 nnz, 0, inpl) ;;
  Ok (Ap, Ai).

End BCSC.
Arguments bcsc V : clear implicits.

(** columns 0,1,2 of a clique with 3,4 below; 3; 4 *)
Example super_run :
  let Lp := [0;5;9;12;14;15] in let Li := [0;1;2;3;4; 1;2;3;4; 2;3;4; 3;4; 4] in
  bcsc_supernodes_lower 5 Lp Li 0 = Ok [0;5] /\ bcsc_supernodes_lower 5 Lp Li 1 = Ok [0;2;4;5] /\
  createSupernode CSC_TYPE 5 Lp Li [] [] 2 = Ok ([0;2;4;5], [2;0;-1]%Z, [0;0;1;1;2]).
Proof. cbv zeta. splits; vm_compute; reflexivity. Qed.
Example bcsc_run :
  newBCSC (V := Z) 4 [0;2;4;6;7] [0;2;1;2;2;3;3] [1;2;3;4;5;6;7]%Z 2 [0;2;4] =
  Ok (mkBCSC 10 [0;6;10;0;0] [0;1;2;0;1;2;2;3;2;3] [1;0;2;0;3;4;5;6;0;7]%Z 2 [0;2;4] [3;2]).
Proof. vm_compute. reflexivity. Qed.
Example supernodal_run :
  superNodal CSR_TYPE 4 [0;2;4;6;7] [0;2;1;2;2;3;3] (Some ([0;1;2;5;7], [0;1;0;1;2;2;3], 7)) 0 =
    Ok ([0;1;2;3;4], ([0;2;4;6;7], [0;2;1;2;2;3;3])).
Proof. vm_compute. reflexivity. Qed.
Example compressed_run :
  compressed_BCSC_to_CSC (V := Z) 4 (mkBCSC 10 [0;6;10;0;0] [0;1;2;0;1;2;2;3;2;3] [1;0;2;0;3;4;5;6;0;7]%Z 2 [0;2;4] [3;2]) = Err OOB.
Proof. vm_compute. reflexivity. Qed.
