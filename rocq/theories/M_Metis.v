(** Model of the interface to METIS (utils/metis_interface.cpp) and of coarsen_k_times (utils/sparse_utilities.cpp).

    METIS itself is a parameter: any function of the graph.  Its return code, which is only asserted, is not modelled, nor is the
    "delete" of an array allocated by new[]. *)
From Verif Require Import Base M_Mat.

(** sparse_utilities.cpp 1191-1202: an entry of a column of the group that starts at [j]; the state is Bi, cur_nnz, is_exist and
    faled_vals *)
Definition coarsen_entry (k : nat) (Ai : list nat) (m : nat) (s : list nat * nat * list bool * list nat) : res (list nat * nat * list bool * list nat) :=
  let '(Bi, cur_nnz, is_exist, vals) := s in
  tmp <- rd Ai m ;;
  let new_idx := tmp / k in
  e <- rd is_exist new_idx ;;
  if e then Ok (Bi, cur_nnz, is_exist, vals)
  else
    is_exist <- wr is_exist new_idx true ;;
    Bi <- wr Bi cur_nnz new_idx ;;
    Ok (Bi, cur_nnz + 1, is_exist, vals ++ [new_idx]).

(** 1179-1215: coarsen_k_times.  The loop over j = 0, k, 2k, ... is a loop over the groups.  The result is new_n, Bp, Bi and the
    nnz field *)
Definition coarsen_k_times (n nnz : nat) (Ap Ai : list nat) (k : nat) : res (nat * (list nat * list nat) * nat) :=
  if k =? 0 then Err DivZero else
  let new_n := if n mod k =? 0 then n / k else n / k + 1 in
  Bp <- wr (if 0 <? new_n then repeat 0 (new_n + 1) else []) 0 0 ;;
  '(Bp, Bi, cur_nnz, _) <- for_ 0 new_n (fun g '(Bp, Bi, cur_nnz, is_exist) =>
    let j := g * k in
    '(Bi, cur_nnz, is_exist, vals) <- for_ j (Nat.min (j + k) n) (fun l s =>
      a <- rd Ap l ;; b <- rd Ap (S l) ;; for_ a b (coarsen_entry k Ai) s) (Bi, cur_nnz, is_exist, []) ;;
    Bp <- wr Bp (g + 1) cur_nnz ;;
    is_exist <- foreach vals (fun i ex => wr ex i false) is_exist ;;
    Ok (Bp, Bi, cur_nnz, is_exist)) (Bp, repeat 0 nnz, 0, repeat false n) ;;
  Ok (new_n, (Bp, Bi), cur_nnz).

(** metis_interface.cpp 74-83, 185-194: a neighbour is stored *)
Definition graph_push (Afullp : list nat) (c r : nat) (s : list nat * list nat) : res (list nat * list nat) :=
  let '(ind, Afulli) := s in
  b <- rd Afullp c ;; x <- rd ind c ;; Afulli <- wr Afulli (b + x) r ;; ind <- wr ind c (x + 1) ;; Ok (ind, Afulli).

(** 52-85, 163-196: the graph that metis_perm_symmetric and metis_partition_symmetric pass to METIS.  A negative array size throws *)
Definition symmetric_graph (n nnz : nat) (Ap Ai : list nat) : res (list nat * list nat) :=
  if 2 * nnz <? n then Err Throw else
  ind <- for_ 0 n (fun i ind => a <- rd Ap i ;; b <- rd Ap (S i) ;;
    for_ a b (fun p ind => row <- rd Ai p ;; x <- rd ind i ;; ind <- wr ind i (x + 1) ;;
      if row =? i then Ok ind else y <- rd ind row ;; wr ind row (y + 1)) ind) (repeat 0 n) ;;
  Afullp <- wr (repeat 0 (n + 1)) 0 0 ;;
  Afullp <- for_ 0 n (fun i p => a <- rd p i ;; x <- rd ind i ;; wr p (S i) (a + x)) Afullp ;;
  ind <- for_ 0 n (fun i ind => wr ind i 0) ind ;;
  '(_, Afulli) <- for_ 0 n (fun i s => a <- rd Ap i ;; b <- rd Ap (S i) ;;
    for_ a b (fun p s => row <- rd Ai p ;;
      if row =? i then Ok s else s <- graph_push Afullp i row s ;; graph_push Afullp row i s) s) (ind, repeat 0 (2 * nnz - n)) ;;
  Ok (Afullp, Afulli).

Section Metis.
Context {V : Type} {DV : Dflt V}.

(** 117-137, 232-255: the graph that metis_perm_general and metis_partition_general pass to METIS *)
Definition general_graph (A : csc V) : res (list nat * list nat) :=
  At <- csc_to_csr A ;;
  Ap <- wr (repeat 0 (cn At + 1)) 0 0 ;;
  '(Ap, Ai, _) <- for_ 0 (cn A) (fun i '(Ap, Ai, cnt) =>
    a <- rd (cp At) i ;; b <- rd (cp At) (S i) ;;
    '(Ai, cnt, row_cnt) <- for_ a b (fun p '(Ai, cnt, row_cnt) =>
      c <- rd (ci At) p ;;
      if i =? c then Ok (Ai, cnt, row_cnt) else Ai <- wr Ai cnt c ;; Ok (Ai, cnt + 1, row_cnt + 1)) (Ai, cnt, 0) ;;
    x <- rd Ap i ;; Ap <- wr Ap (S i) (x + row_cnt) ;; Ok (Ap, Ai, cnt)) (Ap, repeat 0 (cnnz At), 0) ;;
  Ok (Ap, Ai).

(** METIS_NodeND: nodes, graph; METIS_PartGraphKway: nodes, graph, weights (or none), number of parts *)
Variable node_nd : nat -> list nat -> list nat -> list nat.
Variable kway : nat -> list nat -> list nat -> option (list nat) -> nat -> list Z.

Definition copy_out {A} `{Dflt A} (n : nat) (src dst : list A) : res (list A) := for_ 0 n (fun i d => v <- rd src i ;; wr d i v) dst.

(** 45-112: metis_perm_symmetric; -1 for a matrix not marked symmetric *)
Definition metis_perm_symmetric (A : csc V) : res (option (list nat)) :=
  if (cst A =? 0)%Z then Ok None else
  '(p, i) <- symmetric_graph (cn A) (cnnz A) (cp A) (ci A) ;;
  perm <- copy_out (cn A) (node_nd (cn A) p i) (repeat 0 (cn A)) ;; Ok (Some perm).

(** 115-156: metis_perm_general *)
Definition metis_perm_general (A : csc V) : res (list nat) :=
  '(p, i) <- general_graph A ;; copy_out (cn A) (node_nd (cn A) p i) (repeat 0 (cn A)).

(** 158-227: metis_partition_symmetric; no weights are passed *)
Definition metis_partition_symmetric (A : csc V) (k : nat) : res (list Z) :=
  '(p, i) <- symmetric_graph (cn A) (cnnz A) (cp A) (ci A) ;;
  copy_out (cn A) (kway (cn A) p i None k) (repeat 0%Z (cn A)).

(** 230-317: metis_partition_general *)
Definition metis_partition_general (A : csc V) (k : nat) : res (list Z) :=
  '(p, i) <- general_graph A ;;
  weigt <- for_ 0 (cn A) (fun i w => b <- rd (cp A) (S i) ;; a <- rd (cp A) i ;; wr w i (1 + b - a)) (repeat 0 (cn A)) ;;
  let partIDX := kway (cn A) p i (Some weigt) k in
  '(part, min_p_no) <- for_ 0 (cn A) (fun i '(part, mn) => v <- rd partIDX i ;; part <- wr part i v ;; Ok (part, Z.min mn v))
    (repeat 0%Z (cn A), Z.of_nat (cn A)) ;;
  if (min_p_no =? 0)%Z then Ok part
  else for_ 0 (cn A) (fun i part => v <- rd part i ;; wr part i (v - min_p_no)%Z) part.

(** 331-338: the part of coarse node [i] is given to the nodes i .. i+coarsen-1 *)
Definition spread_parts (n new_n coarsen : nat) (part_cors : list Z) : res (list Z) :=
  for_ 0 new_n (fun i part => i2p <- rd part_cors i ;; for_ i (i + coarsen) (fun j part => wr part j i2p) part) (repeat 0%Z n).

(** 319-344: metis_partition_coarsened; the coarse matrix has values (all zero) *)
Definition metis_partition_coarsened (A : csc V) (k coarsen : nat) : res (list Z) :=
  '(new_n, (Bp, Bi), nnz) <- coarsen_k_times (cn A) (cnnz A) (cp A) (ci A) coarsen ;;
  let tmp := mkCSC new_n new_n nnz false (cst A) Bp Bi (repeat dflt (cnnz A)) in
  part_cors <- (if (cst A <? 0)%Z then metis_partition_symmetric tmp k else metis_partition_general tmp k) ;;
  spread_parts (cn A) new_n coarsen part_cors.

End Metis.

Example coarsen_run : coarsen_k_times 5 9 [0;2;4;6;8;9] [0;3;1;4;2;4;3;4;4] 2 = Ok (3, ([0;3;5;6], [0;1;2;1;2;2;0;0;0]), 6).
Proof. reflexivity. Qed.
Example symmetric_graph_run : symmetric_graph 3 5 [0;2;4;5] [0;1;1;2;2] = Ok ([0;2;5;7], [1;0;0;2;0;1;0]).
Proof. reflexivity. Qed.
Example general_graph_run : general_graph (mkCSC 3 3 7 true 0%Z [0;2;5;7] [0;1;0;1;2;1;2] ([] : list Z)) = Ok ([0;1;3;4], [1;0;2;1;0;0;0]).
Proof. reflexivity. Qed.
