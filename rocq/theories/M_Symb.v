(** Models of the symbolic factorisation: utils/lfactor_creation.cpp 95-433 and ereach,
    utils/sparse_inspector.cpp 935-955. *)
From Verif Require Import Base Lib M_Mat M_Tree M_ETree M_Sym.

(** * Row and column counts (lfactor_creation.cpp 95-308) *)

(** 240-243: walk from [i] towards the root while First is EMPTY (-1); result: r, len, First.  The fuel
    covers n steps. *)
Definition first_path (n : nat) (Parent : list Z) (k i : nat) (First : list Z) : res (Z * Z * list Z) :=
  while_ (S (S n))
    (fun '(r, len, First) => if (r =? -1)%Z then Ok false else f <- rdZ First r ;; Ok (f =? -1)%Z)
    (fun '(r, len, First) =>
       First <- wrZ First r (Z.of_nat k) ;; p <- rdZ Parent r ;; Ok (p, (len + 1)%Z, First))
    (Z.of_nat i, 0%Z, First).

(** 252-254 *)
Definition level_path (n : nat) (Parent : list Z) (i : nat) (r len : Z) (Level : list Z) : res (list Z) :=
  st <- while_ (S (S n))
    (fun '(s, len, Level) => Ok (negb (s =? r)%Z))
    (fun '(s, len, Level) => Level <- wrZ Level s len ;; p <- rdZ Parent s ;; Ok (p, (len - 1)%Z, Level))
    (Z.of_nat i, len, Level) ;;
  Ok (snd st).

(** 226-255: first descendants, levels and the initial weights *)
Definition first_levels (n : nat) (Parent : list Z) (Post : list nat) (ColCount First Level : list Z) : res (list Z * list Z * list Z) :=
  First <- for_ 0 n (fun i First => wr First i (-1)%Z) First ;;
  for_ 0 n (fun k '(ColCount, First, Level) =>
    i <- rd Post k ;;
    f <- rd First i ;;
    ColCount <- wr ColCount i (if (f =? -1)%Z then 1 else 0)%Z ;;
    '(r, len, First) <- first_path n Parent k i First ;;
    len <- (if (r =? -1)%Z then Ok (len - 1)%Z else l <- rdZ Level r ;; Ok (len + l)%Z) ;;
    Level <- level_path n Parent i r len Level ;;
    Ok (ColCount, First, Level)) (ColCount, First, Level).

(** the arrays the main loop changes; [sRow] is [None] for the null pointer *)
Record cstate := mkCS { sNbr : list Z; sCol : list Z; sLeaf : list Z; sRow : option (list Z); sSet : list nat }.

(** 96-116 *)
Definition initialize_node (k : nat) (Post : list nat) (Parent : list Z) (st : cstate) : res (nat * cstate) :=
  p <- rd Post k ;;
  parent <- rd Parent p ;;
  Col <- (if (parent =? -1)%Z then Ok (sCol st) else c <- rdZ (sCol st) parent ;; wrZ (sCol st) parent (c - 1)%Z) ;;
  Nbr <- wr (sNbr st) p (Z.of_nat k) ;;
  Ok (p, mkCS Nbr Col (sLeaf st) (sRow st) (sSet st)).

(** 157-158: FIND; the fuel covers n steps *)
Definition find_root (n : nat) (SP : list nat) (s : nat) : res nat :=
  while_ (S n) (fun q => x <- rd SP q ;; Ok (negb (q =? x))) (fun q => rd SP q) s.

(** 161-165: path compression *)
Definition compress (n : nat) (q s : nat) (SP : list nat) : res (list nat) :=
  st <- while_ (S n) (fun '(s, SP) => Ok (negb (s =? q)))
    (fun '(s, SP) => sparent <- rd SP s ;; SP <- wr SP s q ;; Ok (sparent, SP)) (s, SP) ;;
  Ok (snd st).

(** 122-181.  PrevLeaf holds -1 or an index. *)
Definition process_edge (n p u k : nat) (First Level : list Z) (st : cstate) : res cstate :=
  f <- rd First p ;; nb <- rd (sNbr st) u ;;
  st <- (if (nb <? f)%Z then
           c <- rd (sCol st) p ;; Col <- wr (sCol st) p (c + 1)%Z ;;
           prevleaf <- rd (sLeaf st) u ;;
           '(q, Col, SP) <- (if (prevleaf =? -1)%Z then Ok (u, Col, sSet st)
             else q <- find_root n (sSet st) (Z.to_nat prevleaf) ;;
                  SP <- compress n q (Z.to_nat prevleaf) (sSet st) ;;
                  c <- rd Col q ;; Col <- wr Col q (c - 1)%Z ;; Ok (q, Col, SP)) ;;
           Row <- match sRow st with
                  | None => Ok None
                  | Some R => x <- rd R u ;; lp <- rd Level p ;; lq <- rd Level q ;;
                      R <- wr R u (x + (lp - lq))%Z ;; Ok (Some R)
                  end ;;
           Leaf <- wr (sLeaf st) u (Z.of_nat p) ;;
           Ok (mkCS (sNbr st) Col Leaf Row SP)
         else Ok st) ;;
  Nbr <- wr (sNbr st) u (Z.of_nat k) ;;
  Ok (mkCS Nbr (sCol st) (sLeaf st) (sRow st) (sSet st)).

(** 185-197 *)
Definition finalize_node (p : nat) (Parent : list Z) (st : cstate) : res cstate :=
  parent <- rd Parent p ;;
  SP <- (if (parent =? -1)%Z then Ok (sSet st) else wr (sSet st) p (Z.to_nat parent)) ;;
  Ok (mkCS (sNbr st) (sCol st) (sLeaf st) (sRow st) SP).

(** 199-308.  [m] rows; result: the returned flag, RowCount, ColCount, First, Level.  The size
    computations cannot overflow on a matrix that fits in memory (C40); the flop count (a sum of squares in
    doubles) and the unused array Head are left out.  Iwork has 2m cells: SetParent and PrevNbr. *)
Definition row_col_counts_symmetric (m : nat) (Ap Ai : list nat) (stype : Z) (Parent : list Z) (Post : list nat)
    (RowCount : option (list Z)) (ColCount First Level : list Z) : res (bool * (option (list Z) * list Z * list Z * list Z)) :=
  if (0 <=? stype)%Z then Ok (false, (RowCount, ColCount, First, Level)) else
  '(ColCount, First, Level) <- first_levels m Parent Post ColCount First Level ;;
  RowCount <- match RowCount with None => Ok None | Some R => R <- for_ 0 m (fun i R => wr R i 1%Z) R ;; Ok (Some R) end ;;
  '(PrevLeaf, PrevNbr, SetParent) <- for_ 0 m (fun i '(PrevLeaf, PrevNbr, SetParent) =>
      PrevLeaf <- wr PrevLeaf i (-1)%Z ;; PrevNbr <- wr PrevNbr i (-1)%Z ;; SetParent <- wr SetParent i i ;;
      Ok (PrevLeaf, PrevNbr, SetParent)) (repeat 0%Z m, repeat 0%Z m, repeat 0 m) ;;
  st <- for_ 0 m (fun k st =>
      '(j, st) <- initialize_node k Post Parent st ;;
      b <- rd Ap j ;; e <- rd Ap (S j) ;;
      st <- for_ b e (fun p st => i <- rd Ai p ;; if j <? i then process_edge m j i k First Level st else Ok st) st ;;
      finalize_node j Parent st) (mkCS PrevNbr ColCount PrevLeaf RowCount SetParent) ;;
  ColCount <- for_ 0 m (fun j Col =>
      parent <- rd Parent j ;;
      if (parent =? -1)%Z then Ok Col
      else a <- rdZ Col parent ;; b <- rd Col j ;; wrZ Col parent (a + b)%Z) (sCol st) ;;
  Ok (true, (sRow st, ColCount, First, Level)).

(** * The pattern of a row (sparse_inspector.cpp 935-955) *)

(** def.h 32-34 *)
Definition CS_FLIP (x : Z) : Z := (- x - 2)%Z.
Definition cs_mark (w : list Z) (j : nat) : res (list Z) := x <- rd w j ;; wr w j (CS_FLIP x).

(** 944-948: climb from [i] to the first marked node; result: len, s, w.  An index -1 is out of bounds. *)
Definition reach_path (n : nat) (parent : list Z) (i : nat) (s w : list Z) : res (nat * list Z * list Z) :=
  '(_, len, s, w) <- while_ (S (S n))
    (fun '(i, len, s, w) => x <- rdZ w i ;; Ok (negb (x <? 0)%Z))
    (fun '(i, len, s, w) =>
       s <- wr s len i ;; x <- rdZ w i ;; w <- wrZ w i (CS_FLIP x) ;; p <- rdZ parent i ;; Ok (p, S len, s, w))
    (Z.of_nat i, 0, s, w) ;;
  Ok (len, s, w).

(** 949: push the path onto the stack at the end of [s]; an index below 0 is out of bounds *)
Definition push_path (len top : nat) (s : list Z) : res (nat * list Z) :=
  '(_, top, s) <- while_ (S len)
    (fun '(len, top, s) => Ok (0 <? len))
    (fun '(len, top, s) =>
       if top =? 0 then Err OOB else
       x <- rd s (len - 1) ;; s <- wr s (top - 1) x ;; Ok (len - 1, top - 1, s))
    (len, top, s) ;;
  Ok (top, s).

(** 935-955; [s] and [w] are the two halves of the caller's array; result: top, s, w *)
Definition ereach (n : nat) (Ap Ai : list nat) (k : nat) (parent : list Z) (s w : list Z) : res (nat * list Z * list Z) :=
  w <- cs_mark w k ;;
  b <- rd Ap k ;; e <- rd Ap (S k) ;;
  '(top, s, w) <- for_ b e (fun p '(top, s, w) =>
      i <- rd Ai p ;;
      if k <? i then Ok (top, s, w)
      else
        '(len, s, w) <- reach_path n parent i s w ;;
        '(top, s) <- push_path len top s ;;
        Ok (top, s, w)) (n, s, w) ;;
  w <- for_ top n (fun p w => x <- rd s p ;; if (x <? 0)%Z then Err OOB else cs_mark w (Z.to_nat x)) w ;;
  w <- cs_mark w k ;;
  Ok (top, s, w).

(** * The pattern of the factor (lfactor_creation.cpp 311-361) *)

(** 311-325; the doubles are sums of small integers, modelled exactly; [ub] and [sw] are unused *)
Definition compute_cost_per_col (n colNo : nat) (eTree : list Z) (cT rT : list nat) (s w : list Z) : res (nat * nat * list Z * list Z) :=
  '(top, s, w) <- ereach n cT rT colNo eTree s w ;;
  total <- for_ top n (fun i total =>
      x <- rd s i ;; e <- rdZ cT (x + 1)%Z ;; b <- rdZ cT x ;; Ok (total + (e - b))) 0 ;;
  e <- rd cT (S colNo) ;; b <- rd cT colNo ;;
  Ok (total + (e - b), top, s, w).

(** 327-360.  The asserts of 348-349 are errors.  Negative counts cannot be allocated. *)
Definition build_L_pattern (n : nat) (Ap Ai : list nat) (col_count parent : list Z) (accessed : list nat) :
    res (list nat * list nat * list nat) :=
  Lp <- for_ 1 (n + 1) (fun l Lp => a <- rd Lp (l - 1) ;; c <- rd col_count (l - 1) ;;
          if (c <? 0)%Z then Err OOB else wr Lp l (a + Z.to_nat c)) (repeat 0 (n + 1)) ;;
  nnz <- rd Lp n ;;
  '(accessed, Li, _, _, _) <- for_ 0 n (fun s '(accessed, Li, finger, xs, xw) =>
      '(cost, top, xs, xw) <- compute_cost_per_col n s parent Ap Ai xs xw ;;
      accessed <- wr accessed s cost ;;
      l <- rd Lp s ;; Li <- wr Li l s ;;
      f <- rd finger s ;; finger <- wr finger s (S f) ;;
      '(Li, finger) <- for_ top n (fun i '(Li, finger) =>
          c <- rd xs i ;;
          if (Z.of_nat n <=? c)%Z then Err Throw else
          l <- rdZ Lp c ;; f <- rdZ finger c ;;
          if nnz <=? l + f then Err Throw else
          Li <- wr Li (l + f) s ;; finger <- wrZ finger c (S f) ;; Ok (Li, finger)) (Li, finger) ;;
      Ok (accessed, Li, finger, xs, xw)) (accessed, repeat 0 nnz, repeat 0 n, repeat 0%Z n, repeat 0%Z n) ;;
  Ok (Lp, Li, accessed).

(** * The whole analysis (lfactor_creation.cpp 377-430) *)

(** the fields of LFactorSymbolicInfo that are filled *)
Record lfactor := mkLF { lfCounts : list Z; lfPerm : list nat; lfIperm : list nat; lfPost : list nat; lfIpost : list nat;
  lfParent : list Z; lfAccessed : list nat; lfLp : list nat; lfLi : list nat }.

Section Build.
Context {V : Type} {DV : Dflt V}.

Definition deref {X} (r : res (option X)) : res X := o <- r ;; match o with Some x => Ok x | None => Err OOB end.

(** [metis] is the permutation METIS returns, [None] without METIS.  The asserts on the number of nodes
    in the post-orders are errors; a null matrix returned by transpose_symmetric is dereferenced.  The returned flags
    of compute_etree and row_col_counts_symmetric are ignored.  Leaked matrices are not recorded. *)
Definition build_symbolic (A : csc V) (metis : option (list nat)) : res lfactor :=
  let n := cn A in
  let perm := match metis with None => seq 0 n | Some P => P end in
  At_ord <- deref (transpose_symmetric A (match metis with None => None | Some P => Some (map Z.of_nat P) end)) ;;
  A_ord <- deref (transpose_symmetric At_ord None) ;;
  '(_, parent) <- compute_etree (cm At_ord) (cn At_ord) (cp At_ord) (ci At_ord) (cst At_ord) (repeat 0%Z n) ;;
  '(ret, post) <- tree_post_order parent n None (repeat 0 n) ;;
  if negb (ret =? n) then Err Throw else
  '(_, (_, col_count, _, _)) <- row_col_counts_symmetric (cm A_ord) (cp A_ord) (ci A_ord) (cst A_ord) parent post None
      (repeat 0%Z n) (repeat 0%Z n) (repeat 0%Z n) ;;
  '(ret, post) <- tree_post_order parent n (Some col_count) post ;;
  if negb (ret =? n) then Err Throw else
  '(perm, _) <- reorder_array n perm post (repeat 0 n) ;;
  '(col_count, ws) <- reorder_array n col_count post (repeat 0%Z n) ;;
  ipost <- inv_perm n post (repeat 0 n) ;;
  iperm <- inv_perm n perm (repeat 0 n) ;;
  parent <- reorder_tree n parent post ipost ws ;;
  At_ord <- deref (transpose_symmetric A (Some (map Z.of_nat perm))) ;;
  '(Lp, Li, accessed) <- build_L_pattern n (cp At_ord) (ci At_ord) col_count parent (repeat 0 n) ;;
  Ok (mkLF col_count perm iperm post ipost parent accessed Lp Li).
End Build.

(** lower triangle, columns {0,2,3} {1,3} {2,4} {3} {4}: fill (3,2), (4,3) *)
Definition symbA : csc Z := mkCSC 5 5 9 false (-1)%Z [0;3;5;7;8;9] [0;2;3;1;3;2;4;3;4] [1;1;1;1;1;1;1;1;1]%Z.
Example build_symbolic_run : exists l, build_symbolic symbA None = Ok l /\ lfCounts l = [2;3;3;2;1]%Z /\ lfPerm l = [1;0;2;3;4] /\
  lfLp l = [0;2;5;8;10;11] /\ lfLi l = [0;3; 1;2;3; 2;3;4; 3;4; 4].
Proof. eexists. splits; vm_compute; reflexivity. Qed.
