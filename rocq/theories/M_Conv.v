(** Model of convertCNScheduleToSuperNode and aggressiveSupernodeGrouping
    (src/hdagg/hdagg.cpp 1091-1231), Group_DAG and detectDAGCircle (src/group_utils.cpp 61-99).
    The `omp parallel for` at 1102 writes different cells in different iterations (supernodes
    do not overlap); it is modelled sequentially. *)
From Verif Require Import Base Lib.

(** * convertCNScheduleToSuperNode *)

(** hdagg.cpp 1101-1107: the supernode of each node *)
Definition supernode_inverse (n num_supernode : nat) (supernode_ptr : list nat) : res (list nat) :=
  for_ 0 num_supernode (fun s inv =>
    a <- rd supernode_ptr s ;; b <- rd supernode_ptr (S s) ;;
    for_ a b (fun x inv => wr inv x s) inv) (repeat 0 n).

(** 1118-1127: the supernodes met along group [g].  prev_node = -1 is [None].  State: the new
    coarse_node_ptr, new_num_parts. *)
Definition conv_group (group_ptr group_set inv : list nat) (g : nat) (st : list nat * nat) : res (list nat * nat) :=
  a <- rd group_ptr g ;; b <- rd group_ptr (S g) ;;
  '(nodes, cnt, _) <- for_ a b (fun k '(nodes, cnt, prev) =>
      x <- rd group_set k ;; s <- rd inv x ;;
      if match prev with Some q => s =? q | None => false end then Ok (nodes, cnt, prev)
      else Ok (nodes ++ [s], S cnt, Some s)) (fst st, snd st, None) ;;
  Ok (nodes, cnt).

(** 1091-1135; returns coarse_part_ptr and coarse_node_ptr.  The old part pointer is copied
    before the loop; coarse_part_ptr[lvl_ptr] at 1129 is the new one. *)
Definition convertCNScheduleToSuperNode (n num_supernode : nat) (group_ptr group_set supernode_ptr : list nat)
    (level_no : nat) (level_ptr part_ptr node_ptr : list nat) : res (list nat * list nat) :=
  inv <- supernode_inverse n num_supernode supernode_ptr ;;
  for_ 0 level_no (fun l st =>
    a <- rd level_ptr l ;; b <- rd level_ptr (S l) ;;
    for_ a b (fun p '(np, nodes) =>
      e <- rd part_ptr p ;; f <- rd part_ptr (S p) ;;
      '(nodes, cnt) <- for_ e f (fun k st => g <- rd node_ptr k ;; conv_group group_ptr group_set inv g st) (nodes, 0) ;;
      base <- rd np p ;;
      np <- wr np (S p) (cnt + base) ;;
      Ok (np, nodes)) st) (part_ptr, []).

(** three groups 0 1 | 2 3 4 | 5 made of the supernodes 0 | 1 | 2 3 | 4 | 5 *)
Example conv_run :
  convertCNScheduleToSuperNode 6 5 [0;2;5;6] [0;1;2;3;4;5] [0;1;2;4;5;6] 2 [0;1;2] [0;2;3] [2;0;1]
    = Ok ([0;3;5], [4;0;1;2;3]).
Proof. vm_compute. reflexivity. Qed.

(** * aggressiveSupernodeGrouping *)

(** 1149-1164: the part within its level and the level of every node *)
Definition assign_nodes (num_nodes : nat) (group_ptr group_set : list nat) (level_no : nat)
    (level_ptr part_ptr node_ptr : list nat) : res (list (nat * nat)) :=
  for_ 0 level_no (fun l asg =>
    a <- rd level_ptr l ;; b <- rd level_ptr (S l) ;;
    '(asg, _) <- for_ a b (fun p '(asg, core) =>
      e <- rd part_ptr p ;; f <- rd part_ptr (S p) ;;
      asg <- for_ e f (fun k asg =>
        g <- rd node_ptr k ;; c <- rd group_ptr g ;; d <- rd group_ptr (S g) ;;
        for_ c d (fun q asg => x <- rd group_set q ;; wr asg x (core, l)) asg) asg ;;
      Ok (asg, S core)) (asg, 0) ;;
    Ok asg) (repeat (0, 0) num_nodes).

Section Aggr.
Variables (num_nodes : nat) (DAG_ptr DAG_set : list nat) (asg : list (nat * nat)).

(** 1195-1200: do the last [off] entries of column [col] equal column [it]?  [diff] = it - col. *)
Definition same_tail (col it : nat) (diff : Z) (off : nat) : res bool :=
  forb_ 0 off (fun row _ =>
    a <- rd DAG_ptr col ;; x <- rdZ DAG_set (Z.of_nat a + Z.of_nat row + diff) ;;
    b <- rd DAG_ptr it ;; y <- rd DAG_set (b + row) ;;
    if x =? y then Ok (false, true) else Ok (true, false)) true.

(** 1179-1207: one candidate; [true] leaves the loop.  State: grouped, the current supernode *)
Definition aggr_candidate (col it : nat) (st : list bool * list nat) : res (bool * (list bool * list nat)) :=
  let '(grouped, cur) := st in
  pc <- rd asg col ;; pi <- rd asg it ;;
  if negb ((fst pc =? fst pi) && (snd pc =? snd pi)) then Ok (false, st)
  else
    gi <- rd grouped it ;;
    if gi : bool then Ok (false, st)
    else
      let diff := (Z.of_nat it - Z.of_nat col)%Z in
      i1 <- rd DAG_ptr (S it) ;; i0 <- rd DAG_ptr it ;;
      c1 <- rd DAG_ptr (S col) ;; c0 <- rd DAG_ptr col ;;
      let off_last := (Z.of_nat i1 - Z.of_nat i0)%Z in
      let off_first := (Z.of_nat c1 - Z.of_nat c0 - diff)%Z in
      if negb (off_first =? off_last)%Z then Ok (true, st)
      else
        ok <- same_tail col it diff (Z.to_nat off_first) ;;
        if ok : bool then grouped <- wr grouped it true ;; Ok (false, (grouped, cur ++ [it]))
        else Ok (false, st).

(** 1210-1215: the next node without a supernode *)
Definition aggr_next (grouped : list bool) (col : nat) : res nat :=
  while_ (S num_nodes) (fun col => if col =? num_nodes then Ok false else rd grouped col) (fun col => Ok (S col)) col.

(** 1173-1216: one supernode; the supernodes are kept as a list of lists, supernode_ptr holds
    their lengths' prefix sums and supernode_set their concatenation.  The vector of candidates is
    built from the range [DAG_ptr[col] + 1, DAG_ptr[col + 1]), which is not one for an empty column. *)
Definition aggr_one (st : nat * list bool * list (list nat)) : res (nat * list bool * list (list nat)) :=
  let '(col, grouped, sups) := st in
  c0 <- rd DAG_ptr col ;; c1 <- rd DAG_ptr (S col) ;;
  if negb ((S c0 <=? c1) && (c1 <=? length DAG_set)) then Err OOB
  else
    grouped <- wr grouped col true ;;
    '(grouped, cur) <- forb_ (S c0) c1 (fun k st => it <- rd DAG_set k ;; aggr_candidate col it st) (grouped, [col]) ;;
    col <- aggr_next grouped col ;;
    Ok (col, grouped, sups ++ [cur]).

Definition aggr_supernodes : res (list (list nat)) :=
  '(_, _, sups) <- while_ (S num_nodes) (fun '(col, _, _) => Ok (col <? num_nodes)) aggr_one
      (0, repeat false num_nodes, []) ;;
  Ok sups.
End Aggr.

(** 1138-1231: the value returned is avg_supernode_size / cnt, here the pair of the two
    (sums of small integers, exact in double); with no supernode it is 0 / 0, a NaN. *)
Definition aggressiveSupernodeGrouping (num_nodes : nat) (group_ptr group_set DAG_ptr DAG_set : list nat)
    (level_no : nat) (level_ptr part_ptr node_ptr : list nat) : res (nat * nat) :=
  asg <- assign_nodes num_nodes group_ptr group_set level_no level_ptr part_ptr node_ptr ;;
  sups <- aggr_supernodes num_nodes DAG_ptr DAG_set asg ;;
  Ok (fold_left (fun a s => a + length s) sups 0, length sups).

Example aggr_run :
  aggr_supernodes 5 [0;4;7;9;11;12] [0;1;3;4;1;3;4;2;4;3;4;4] [(0,0);(0,0);(1,0);(0,0);(0,1)] = Ok [[0;1];[2];[3];[4]] /\
  aggressiveSupernodeGrouping 5 [0;1;2;3;4;5] [0;1;2;3;4] [0;4;7;9;11;12] [0;1;3;4;1;3;4;2;4;3;4;4]
    2 [0;2;3] [0;3;4;5] [0;1;3;2;4] = Ok (5, 4).
Proof. vm_compute. auto. Qed.

(** * group_utils.cpp *)

(** group_utils.cpp 61-82: Group_DAG *)
Definition Group_DAG (DAG : list (list nat)) (groupPtr groupSet groupInv : list nat) (ngroup : nat) : res (list (list nat)) :=
  for_ 0 ngroup (fun i gDAG =>
    a <- rd groupPtr i ;; b <- rd groupPtr (S i) ;;
    t <- for_ a b (fun j t =>
        idx <- rd groupSet j ;; ch <- rd DAG idx ;;
        foreach ch (fun y t => g <- rd groupInv y ;; Ok (if g =? i then t else t ++ [g])) t) [] ;;
    Ok (gDAG ++ [uniq (isort t)])) [].

(** group_utils.cpp 84-99: detectDAGCircle; the pairs printed, in order *)
Definition detectDAGCircle (DAG : list (list nat)) : res (list (nat * nat)) :=
  for_ 0 (length DAG) (fun i out =>
    ch <- rd DAG i ;;
    for_ 0 (length ch) (fun j out =>
      tar <- rd ch j ;; back_ch <- rd DAG tar ;;
      Ok (if existsb (fun v => v =? i) back_ch then out ++ [(i, tar)] else out)) out) [].

Example circle_run : detectDAGCircle [[1];[2;0];[3];[3]] = Ok [(0,1);(1,0);(3,3)] /\ detectDAGCircle [[1];[2];[0]] = Ok [].
Proof. vm_compute. auto. Qed.
