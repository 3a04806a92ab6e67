(** Spec of the symbolic Cholesky factorisation, in terms of the closure [fill] of SpecETree only. *)
From Verif Require Import Base Spec SpecETree.

(** row [u] occurs in column [c] of the factor of the matrix with off-diagonal entries [A] *)
Definition factor_entry (A : nat -> nat -> Prop) (c u : nat) : Prop := u = c \/ (c < u /\ fill A c u).

(** [z] numbers below [n] satisfy [P] *)
Definition counts (n : nat) (P : nat -> Prop) (z : Z) : Prop :=
  exists l, NoDup l /\ (forall u, In u l <-> u < n /\ P u) /\ z = Z.of_nat (length l).

(** [Lp], [Li] hold the pattern of the factor by columns: no entry missing, none twice, rows
    increasing, so the diagonal first *)
Definition exact_pattern (n : nat) (A : nat -> nat -> Prop) (Lp Li : list nat) : Prop :=
  length Lp = S n /\ Lp.[0] = 0 /\ length Li = Lp.[n] /\
  forall c, c < n -> Lp.[c] < Lp.[S c] /\ Lp.[S c] <= length Li /\ Li.[Lp.[c]] = c /\
    (forall a b, Lp.[c] <= a -> a < b -> b < Lp.[S c] -> Li.[a] < Li.[b]) /\
    (forall u, entry Lp Li c u <-> u < n /\ factor_entry A c u).

(** the off-diagonal entries of P A P' of which the lower triangle is stored by columns in [Ap], [Ai];
    new index [i] is old index [q i] *)
Definition permuted_lower (n : nat) (Ap Ai : list nat) (q : nat -> nat) (i k : nat) : Prop :=
  i < k /\ k < n /\ entry Ap Ai (Nat.min (q i) (q k)) (Nat.max (q i) (q k)).
