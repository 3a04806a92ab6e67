(** Specification of elimination trees, independent of any algorithm: symbolic Cholesky
    factorisation as a closure, and the tree of first off-diagonal entries. *)
From Verif Require Import Base Spec.

(** [fill A x y]: the factor of a symmetric matrix with off-diagonal entries [A] (in either
    triangle) has an entry joining [x] and [y]: it is an entry of the matrix, or eliminating an
    earlier [j] joined to both creates it. *)
Inductive fill (A : nat -> nat -> Prop) : nat -> nat -> Prop :=
| fill_entry x y : A x y \/ A y x -> x <> y -> fill A x y
| fill_elim j x y : fill A j x -> fill A j y -> j < x -> j < y -> x <> y -> fill A x y.

(** [p] is the parent of [i] in the elimination tree: the row of the first entry below the diagonal
    in column [i] of the factor, -1 if there is none *)
Definition etree_parent (A : nat -> nat -> Prop) (n i : nat) (p : Z) : Prop :=
  (p = (-1)%Z /\ forall k, i < k -> k < n -> ~ fill A i k) \/
  (exists k, p = Z.of_nat k /\ i < k /\ k < n /\ fill A i k /\ forall j, i < j -> fill A i j -> k <= j).

(** the strict lower triangle of a matrix given by rows (or the strict upper one, given by columns) *)
Definition below (n : nat) (Ap Ai : list nat) (i k : nat) : Prop := i < k /\ k < n /\ entry Ap Ai k i.

(** the off-diagonal entries of A'A: two columns of [A] share a row *)
Definition share_row (n : nat) (Ap Ai : list nat) (i k : nat) : Prop :=
  i < n /\ k < n /\ i <> k /\ exists r, entry Ap Ai i r /\ entry Ap Ai k r.
