(** Models of level_set_bn, find, sup2node_gen, bcsc_csc_bcsc_levelset and merge_graphs
    (utils/sparse_inspector.cpp 273-455, 556-885). *)
From Verif Require Import Base M_Multi M_Super.

(** * The search for levels *)

(** queue, visited, inqueue, next_n *)
Definition visit_one (deg : list Z) (s : list nat * list Z * list bool * nat) (o : nat) : res (list nat * list Z * list bool * nat) :=
  let '(queue, vis, inq, next) := s in
  x <- rd vis o ;; vis <- wr vis o (x + 1)%Z ;; d <- rd deg o ;;
  ready <- (if (x + 1 =? d)%Z then q <- rd inq o ;; Ok (negb q) else Ok false) ;;
  if ready : bool then inq <- wr inq o true ;; Ok (queue ++ [o], vis, inq, S next)
  else Ok (queue, vis, inq, next).

(** 337-353, 418-434, 680-715: one node.  [targets] are the cells touched by its entries, in order; they are
    collected before the loop, which writes none of the arrays they are read from.  [extra] are the nodes
    pushed in any case (350-354). *)
Definition fuse_node (targets extra : nat -> res (list nat)) (deg : list Z)
  (s : (list nat * list Z * list bool * nat) * list nat * nat) : res ((list nat * list Z * list bool * nat) * list nat * nat) :=
  let '((queue, vis, inq, next), levels, lev_num) := s in
  match queue with
  | [] => Err OOB
  | index :: queue =>
      x <- rd vis index ;; vis <- wr vis index (x + 1)%Z ;; inq <- wr inq index false ;;
      levels <- wr levels lev_num index ;;
      ts <- targets index ;;
      '(queue, vis, inq, next) <- foreach ts (fun o s => visit_one deg s o) (queue, vis, inq, next) ;;
      es <- extra index ;;
      '(queue, inq, next) <- foreach es (fun o '(queue, inq, next) => inq <- wr inq o true ;; Ok (queue ++ [o], inq, S next)) (queue, inq, next) ;;
      Ok ((queue, vis, inq, next), levels, S lev_num)
  end.

(** 311-362, 389-445, 646-726: all levels; [N] cells of degrees, [size] of levels, [lpsize] of levelPtr.  [fuel]
    bounds the number of levels.  Result: number of levels, levelptr (cut to the levels), levels. *)
Definition fuse_levels (targets extra : nat -> res (list nat)) (deg : list Z) (N size lpsize : nat) (sources : list nat) (inq : list bool)
  : res (nat * (list nat * list nat)) :=
  lp <- wr (repeat 0 lpsize) 0 0 ;;
  '(_, _, _, levels, _, cur, lp, _) <- while_ (S size)
    (fun '(queue, vis, inq, levels, lev_num, cur, lp, cur_n) => Ok (negb (length queue =? 0)))
    (fun '(queue, vis, inq, levels, lev_num, cur, lp, cur_n) =>
       a <- rd lp cur ;; lp <- wr lp (S cur) (a + cur_n) ;;
       '((queue, vis, inq, next), levels, lev_num) <- for_ 0 cur_n (fun _ => fuse_node targets extra deg) ((queue, vis, inq, 0), levels, lev_num) ;;
       Ok (queue, vis, inq, levels, lev_num, S cur, lp, next))
    (sources, repeat 0%Z N, inq, repeat 0 size, 0, 0, lp, length sources) ;;
  Ok (cur, (firstn (S cur) lp, levels)).

(** 308-315, 391-397, 637-644: blocks of degree 0, in order *)
Definition fuse_sources (super : list Z) (nodes : nat) (deg : list Z) (inq : list bool) : res (list nat * list bool) :=
  for_ 0 nodes (fun i '(queue, inq) => s <- rd super i ;; d <- rdZ deg s ;;
    if (d =? 0)%Z then inq <- wr inq (Z.to_nat s) true ;; Ok (queue ++ [Z.to_nat s], inq) else Ok (queue, inq)) ([], inq).

(** 289-295, 602-609: first columns of the blocks, blocks in increasing order *)
Definition supers_lower (n nodes : nat) (super : list Z) : res (list nat) :=
  '(sup, _) <- for_ 0 nodes (fun i st =>
      while_ (S n)
        (fun st : list nat * nat => let '(_, c) := st in a <- rd super i ;; b <- rd super (S i) ;; Ok ((a <=? Z.of_nat c) && (Z.of_nat c <? b))%Z)
        (fun st => let '(sup, c) := st in a <- rd super i ;; sup <- wr sup c (Z.to_nat a) ;; Ok (sup, S c)) st) (repeat 0 n, 0) ;;
  Ok sup.

(** 368-375: the last columns, from the last block to the first; the counter goes down from n-1 *)
Definition supers_upper (n nodes : nat) (super : list Z) : res (list nat) :=
  '(sup, _) <- for_ 0 nodes (fun i st =>
      while_ (S n)
        (fun st : list nat * Z => let '(_, c) := st in a <- rd super i ;; b <- rd super (S i) ;; Ok ((c <=? a) && (b <? c))%Z)
        (fun st => let '(sup, c) := st in a <- rd super i ;; sup <- wrZ sup c (Z.to_nat a) ;; Ok (sup, (c - 1)%Z)) st) (repeat 0 n, (Z.of_nat n - 1)%Z) ;;
  Ok sup.

(** 300, 337: positions of the entries of column [index], without the first; 380, 418: all, backwards *)
Definition bn_positions (lower : bool) (Lp : list nat) (index : nat) : res (list nat) :=
  if lower then a <- rd Lp index ;; b <- rd Lp (S index) ;; Ok (seq (S a) (b - S a))
  else b <- rd Lp (S index) ;; a <- rd Lp index ;; Ok (rev (seq a (b - a))).

(** the blocks of the entries at positions [ps], shifted *)
Definition block_targets (Li sup : list nat) (off : nat) (ps : list nat) : res (list nat) :=
  foreach ps (fun p acc => i <- rd Li p ;; s <- rd sup i ;; Ok (acc ++ [s + off])) [].

(** supernodes[i] used as a column *)
Definition rd_node (super : list Z) (i : nat) : res nat := s <- rd super i ;; if (s <? 0)%Z then Err OOB else Ok (Z.to_nat s).

(** 279, 297-307, 378-388 *)
Definition bn_degrees (lower : bool) (n K : nat) (Lp Li sup : list nat) (super : list Z) (nodes : nat) : res (list Z) :=
  for_ 0 nodes (fun i deg => index <- rd_node super i ;; ps <- bn_positions lower Lp index ;;
    ts <- block_targets Li sup 0 ps ;;
    foreach ts (fun s deg =>
      if index =? s then Ok deg else for_ 0 K (fun q deg => d <- rd deg (s + q * n) ;; wr deg (s + q * n) (d + 1)%Z) deg) deg)
    (repeat 0%Z n ++ repeat memset_one (n * (K - 1))).

(** 337-349, 418-429: kern_num is index / n *)
Definition bn_targets (lower : bool) (n : nat) (Lp Li sup : list nat) (index : nat) : res (list nat) :=
  let kern := index / n in
  ps <- bn_positions lower Lp (index - kern * n) ;; block_targets Li sup (n * kern) ps.

(** 350-355, 431-436 *)
Definition bn_extra (n K index : nat) : res (list nat) :=
  let kern := index / n in Ok (if kern + 1 <? K then [index - kern * n + n * (kern + 1)] else []).

(** 273-455.  For n_kern = 0 the size of memset is negative.  supernodes is an int array: it ends with -1
    when isLower is false. *)
Definition level_set_bn (n : nat) (Lp Li : list nat) (super : list Z) (nodes K : nat) (lower : bool) : res (nat * (list nat * list nat)) :=
  if (K =? 0) && (0 <? n) then Err OOB else
  sup <- (if lower then supers_lower n nodes super else supers_upper n nodes super) ;;
  deg <- bn_degrees lower n K Lp Li sup super nodes ;;
  '(queue, inq) <- fuse_sources super nodes deg (repeat false (K * n)) ;;
  fuse_levels (bn_targets lower n Lp Li sup) (bn_extra n K) deg (K * n) (K * nodes) (K * nodes + 1) queue inq.

(** * Blocks of nodes *)

(** 556-572; the recursion has no other end than a match *)
Fixpoint find_block (fuel : nat) (super : list Z) (first last : nat) (target : Z) : res nat :=
  match fuel with
  | 0 => Err Fuel
  | S fuel =>
      hit <- (if first =? last then v <- rd super first ;; Ok (v =? target)%Z else Ok false) ;;
      if hit : bool then Ok first else
      r <- (if last =? S first
            then v <- rd super first ;; if (v =? target)%Z then Ok (Some first) else
                 w <- rd super last ;; if (w =? target)%Z then Ok (Some last) else Ok None
            else Ok None) ;;
      match r with
      | Some x => Ok x
      | None =>
          let m := (last + first) / 2 in
          v <- rd super m ;;
          if (v =? target)%Z then Ok m
          else if (target <? v)%Z then find_block fuel super first m target else find_block fuel super m last target
      end
  end.

(** 574-585 *)
Definition sup2node_gen (fuel n size : nat) (levels : list nat) (nodes : nat) (super : list Z) : res (list nat) :=
  for_ 0 size (fun i r => s <- rd levels i ;; if n =? 0 then Err DivZero else
    k <- find_block fuel super 0 nodes (Z.of_nat (s - s / n * n)) ;; wr r i k) (repeat 0 size).

(** * Two triangular solves with a product between them *)

(** 611-635 *)
Definition bcb_degrees (n nodes : nat) (Ap Ai Bp Bi Cp Ci sup : list nat) (super : list Z) : res (list Z) :=
  deg <- for_ 0 nodes (fun i deg => index <- rd_node super i ;;
    ps <- bn_positions true Ap index ;; ts <- block_targets Ai sup 0 ps ;;
    deg <- foreach ts (fun s deg => if index =? s then Ok deg else d <- rd deg s ;; wr deg s (d + 1)%Z) deg ;;
    ps <- bn_positions true Cp index ;; ts <- block_targets Ci sup 0 ps ;;
    foreach ts (fun s deg => if index =? s then Ok deg else d <- rd deg (s + n) ;; wr deg (s + n) (d + 1)%Z) deg)
    (repeat 0%Z (2 * n)) ;;
  for_ 0 nodes (fun i deg => index <- rd_node super i ;; stop <- rd_node super (S i) ;;
    a <- rd Bp index ;; b <- rd Bp stop ;; ts <- block_targets Bi sup 0 (seq a (b - a)) ;;
    foreach ts (fun s deg => d <- rd deg (s + n) ;; wr deg (s + n) (d + 1)%Z) deg) deg.

(** 670-715.  index + width is the first column of the next block. *)
Definition bcb_targets (fuel n nodes : nat) (Ap Ai Bp Bi Cp Ci sup : list nat) (super : list Z) (index : nat) : res (list nat) :=
  let kern := index / n in
  let index := index - kern * n in
  if kern =? 0 then
    ps <- bn_positions true Ap index ;; ta <- block_targets Ai sup 0 ps ;;
    start <- find_block fuel super 0 nodes (Z.of_nat index) ;;
    u <- rd super (S start) ;; v <- rd super start ;;
    a <- rd Bp index ;; b <- rdZ Bp (Z.of_nat index + (u - v)) ;;
    tb <- block_targets Bi sup n (seq a (b - a)) ;;
    Ok (ta ++ tb)
  else
    ps <- bn_positions true Cp index ;; block_targets Ci sup n ps.

(** 590-733 without the assertions on the dimensions *)
Definition bcsc_csc_bcsc_levelset (fuel n : nat) (Ap Ai Bp Bi Cp Ci : list nat) (nodes : nat) (super : list Z) : res (nat * (list nat * list nat)) :=
  sup <- supers_lower n nodes super ;;
  deg <- bcb_degrees n nodes Ap Ai Bp Bi Cp Ci sup super ;;
  '(queue, inq) <- fuse_sources super nodes deg (repeat false (2 * n)) ;;
  fuse_levels (bcb_targets fuel n nodes Ap Ai Bp Bi Cp Ci sup super) (fun _ => Ok []) deg (2 * n) (2 * nodes) (2 * n + 1) queue inq.

(** * The graph of the blocks of all three *)

Section Merge.
Context {V : Type} `{DV : Dflt V}.

(** 758-767, 774-783, 790-799 and 810-822, 836-848, 857-869: the blocks met by the rows of block [i], each once.  [stuck]: the
    row is read at nB->p[i] in every iteration (775, 837). *)
Definition block_rows3 (stuck : bool) (nodes : nat) (M : bcsc V) (sup : list nat) (i : nat) (inpl : list bool) : res (list bool * list nat) :=
  nr <- rd (b_nrows M) i ;;
  '(inpl, t) <- for_ 0 nr (fun r st => let '(inpl, t) := st in
      b <- rd (b_p M) i ;; x <- rd (b_i M) (if stuck then b else b + r) ;; row <- rd sup x ;; v <- rd inpl row ;;
      if v : bool then Ok (inpl, t)
      else inpl <- wr inpl row true ;; (if length t <? nodes then Ok (inpl, t ++ [row]) else Err OOB)) (inpl, []) ;;
  inpl <- clear_rows t inpl ;;
  Ok (inpl, t).

(** 757-803: one of the three counting loops; [more] entries besides those of the blocks *)
Definition count_pass (stuck : bool) (more nodes : nat) (M : bcsc V) (sup : list nat) (st : nat * list bool) : res (nat * list bool) :=
  for_ 0 nodes (fun i '(nnz, inpl) => '(inpl, t) <- block_rows3 stuck nodes M sup i inpl ;; Ok (nnz + length t + more, inpl)) st.

(** 808-873: one of the three writing loops; [col j t] is the column written for the blocks [t], [p] counts the columns *)
Definition write_pass (stuck : bool) (col : nat -> list nat -> list nat) (nodes : nat) (M : bcsc V) (sup : list nat)
  (st : list nat * list nat * nat * nat * list bool) : res (list nat * list nat * nat * nat * list bool) :=
  for_ 0 nodes (fun j '(Mp, Mi, p, i, inpl) =>
    a <- rd Mp (p - 1) ;;
    '(inpl, t) <- block_rows3 stuck nodes M sup j inpl ;;
    '(Mi, i) <- foreach (col j t) (fun row '(Mi, i) => Mi <- wr Mi i row ;; Ok (Mi, S i)) (Mi, i) ;;
    Mp <- wr Mp p (a + length (col j t)) ;;
    Ok (Mp, Mi, S p, i, inpl)) st.

(** 735-885; [n] is A->n and B->n.  Result: the arrays of M. *)
Definition merge_graphs (n : nat) (A : bcsc V) (Bp Bi : list nat) (Bx : list V) (C : bcsc V) : res (list nat * list nat) :=
  let nodes := b_nodes A in
  nB <- newBCSC n Bp Bi Bx nodes (b_super A) ;;
  sup <- supers_of n nodes (b_super A) ;;
  st <- count_pass false 1 nodes A sup (0, repeat false nodes) ;;
  st <- count_pass true 1 nodes nB sup st ;;
  '(nnz, inpl) <- count_pass false 0 nodes C sup st ;;
  Mp <- wr (repeat 0 (3 * nodes + 1)) 0 0 ;;
  st <- write_pass false (fun j t => t ++ [j + nodes]) nodes A sup (Mp, repeat 0 nnz, 1, 0, inpl) ;;
  st <- write_pass true (fun j t => (j + nodes) :: map (fun r => r + 2 * nodes) t) nodes nB sup st ;;
  '(Mp, Mi, _, _, _) <- write_pass false (fun j t => map (fun r => r + 2 * nodes) t) nodes C sup st ;;
  Ok (Mp, Mi).
End Merge.

(** blocks 0, {1,2}, 3 of a lower triangular matrix *)
Example bn_run :
  level_set_bn 4 [0;2;5;7;8] [0;1;1;2;3;2;3;3] [0;1;3;4]%Z 3 1 true = Ok (3, ([0;1;2;3], [0;1;3])) /\
  level_set_bn 4 [0;2;5;7;8] [0;1;1;2;3;2;3;3] [0;1;3;4]%Z 3 2 true = Ok (4, ([0;1;3;5;6], [0;1;4;3;5;7])) /\
  level_set_bn 4 [0;1;3;6;9] [0;0;1;0;1;2;0;2;3] [3;2;0;-1]%Z 3 1 false = Ok (3, ([0;1;2;3], [3;2;0])) /\
  sup2node_gen 9 4 6 [0;1;4;3;5;7] 3 [0;1;3;4]%Z = Ok [0;1;0;2;1;2].
Proof. vm_compute. auto. Qed.

Example bcb_run :
  bcsc_csc_bcsc_levelset 9 4 [0;2;5;7;8] [0;1;1;2;3;2;3;3] [0;1;2;3;4] [0;1;2;3] [0;2;5;7;8] [0;1;1;2;3;2;3;3] 3 [0;1;3;4]%Z =
    Ok (4, ([0;1;3;5;6], [0;1;4;3;5;7])).
Proof. vm_compute. reflexivity. Qed.

Example merge_run :
  let T := [0;2;5;7;8] in let I := [0;1;1;2;3;2;3;3] in
  match newBCSC 4 T I [1;1;1;1;1;1;1;1]%nat 3 [0;1;3;4] with
  | Ok A => merge_graphs 4 A [0;2;4;6;8] [0;3;1;3;0;2;2;3] [1;1;1;1;1;1;1;1]%nat A
  | Err e => Err e
  end = Ok ([0;3;6;8;10;12;14;16;18;19], [0;1;3;1;2;4;2;5;3;6;4;6;5;7;6;7;7;8;8]).
Proof. vm_compute. reflexivity. Qed.
