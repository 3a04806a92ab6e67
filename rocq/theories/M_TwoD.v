(** Model of HDAGG::twoDReordering (src/hdagg/hdagg.cpp 2402-2473). *)
From Verif Require Import Base Lib.

(** include/aggregation/hdagg.h 40-44: twoDIteration, the fields i, k, j in this order *)
Notation twoDIteration := (nat * nat * nat)%type.

(** hdagg.cpp 2479-2481: sortbysec compares the third field *)
Definition sortbysec (a b : twoDIteration) : bool := snd a <? snd b.

(** std::stable_sort with sortbysec.  The result of a stable sort by a strict weak
    order is unique, so insertion sort stands for any implementation. *)
Fixpoint sinsert (x : twoDIteration) (l : list twoDIteration) : list twoDIteration :=
  match l with
  | [] => [x]
  | y :: t => if sortbysec y x then y :: sinsert x t else x :: l
  end.
Fixpoint stable_sort (l : list twoDIteration) : list twoDIteration :=
  match l with [] => [] | x :: t => sinsert x (stable_sort t) end.

(** std::stable_sort(v.data() + a, v.data() + b, sortbysec) *)
Definition stable_sort_range (l : list twoDIteration) (a b : nat) : res (list twoDIteration) :=
  if (a <=? b) && (b <=? length l)
  then Ok (firstn a l ++ stable_sort (slice l a b) ++ skipn b l) else Err OOB.

Section TwoD.
Variables (Lp Li level_ptr part_ptr node_ptr : list nat).

(** 2438-2445: the entries of row [i] *)
Definition two_row (i : nat) (st : list twoDIteration * nat) : res (list twoDIteration * nat) :=
  lo <- rd Lp i ;; hi <- rd Lp (S i) ;;
  for_ lo hi (fun k '(its, cnt) => j <- rd Li k ;; Ok (its ++ [(i, k, j)], S cnt)) st.

(** 2427-2446: the rows of part [j1].  prev_i = -2 at the start is [None]: no row is -1. *)
Definition two_part (j1 : nat) (grp : list nat) (its : list twoDIteration) (cnt : nat)
    : res (list nat * list twoDIteration * nat) :=
  e <- rd part_ptr j1 ;; f <- rd part_ptr (S j1) ;;
  '(grp, its, cnt, _) <- for_ e f (fun k1 '(grp, its, cnt, prev) =>
      i <- rd node_ptr k1 ;;
      g <- back grp ;;
      let grp := if negb (match prev with Some p => i =? S p | None => false end) && negb (g =? cnt)
                 then grp ++ [cnt] else grp in
      '(its, cnt) <- two_row i (its, cnt) ;;
      Ok (grp, its, cnt, Some i)) (grp, its, cnt, None) ;;
  Ok (grp, its, cnt).

(** 2424-2452: returns cnc_group_ptr, final_tuple_ptr, final_iter_ptr *)
Definition two_unpack (level_no : nat) (tuple0 : list nat) : res (list nat * list nat * list twoDIteration) :=
  '(grp, tup, its, _) <- for_ 0 level_no (fun i1 st =>
      a <- rd level_ptr i1 ;; b <- rd level_ptr (S i1) ;;
      for_ a b (fun j1 '(grp, tup, its, cnt) =>
        '(grp, its, cnt) <- two_part j1 grp its cnt ;;
        g <- back grp ;;
        Ok (if g =? cnt then grp else grp ++ [cnt], tup ++ [cnt], its, cnt)) st) ([0], tuple0 ++ [0], [], 0) ;;
  Ok (grp, tup, its).

(** 2402-2473.  final_iter_ptr is cleared, final_tuple_ptr ([tuple0]) is not.  The
    parameters n, nnz (only reserved) and T1_size play no role. *)
Definition twoDReordering (level_no : nat) (tuple0 : list nat) : res (list nat * list twoDIteration) :=
  '(grp, tup, its) <- two_unpack level_no tuple0 ;;
  its <- for_ 0 (length grp - 1) (fun g its =>
      a <- rd grp g ;; b <- rd grp (S g) ;; stable_sort_range its a b) its ;;
  Ok (tup, its).

End TwoD.

Example two_run :
  twoDReordering [0;1;3;6;8] [0;0;1;0;1;2;0;3] [0;1;2] [0;3;4] [0;1;2;3] 2 []
    = Ok ([0;6;8], [(0,0,0);(1,1,0);(2,3,0);(1,2,1);(2,4,1);(2,5,2);(3,6,0);(3,7,3)]).
Proof. vm_compute. reflexivity. Qed.
