(** Model of two functions that report the result of a grouping: GreedyGrouping::getGroupedRangeArray
    (src/Group/Group.cpp 483-486) and SuperNodal::getAvgSuperNode (include/aggregation/SuperNodalTools.h 108-114). *)
From Verif Require Import Base Lib.

(** Group.cpp 483-486; a failed assertion is [Throw], std::copy writes cell by cell *)
Definition getGroupedRangeArray (ng : nat) (gset : list nat) (range : list nat) (size : nat) : res (list nat) :=
  if negb (size =? S ng) then Err Throw else
  '(range, _) <- foreach gset (fun x '(range, k) => range <- wr range k x ;; Ok (range, S k)) (range, 0) ;;
  Ok range.

(** SuperNodalTools.h 108-114: the quotient as (numerator, denominator); num_supernodes is the length of the
    pointer array minus one.  The differences are natural numbers because the pointers do not decrease. *)
Definition getAvgSuperNode (num : nat) (ptr : list nat) : res (nat * nat) :=
  size <- for_ 0 num (fun i size => b <- rd ptr (S i) ;; a <- rd ptr i ;; Ok (size + (b - a))) 0 ;;
  Ok (size, num).
