(** Spec for groupings into runs of consecutive nodes. *)
From Verif Require Export Base Lib Spec SpecSolve SpecGroup.

(** The groups are runs of consecutive nodes in order, [ginv] is the group of each node, and
    a node is in the same run as its successor exactly when [link] says so. *)
Definition runs (n : nat) (link : nat -> Prop) (ng : nat) (gp gs ginv : list nat) : Prop :=
  gp.[0] = 0 /\ (forall g, g < ng -> gp.[g] < gp.[S g]) /\ gp.[ng] = n /\
  (forall v, v < n -> gs.[v] = v) /\
  (forall g v, g < ng -> gp.[g] <= v < gp.[S g] -> ginv.[v] = g) /\
  (forall v, S v < n -> (link v <-> ginv.[v] = ginv.[S v])).

(** the second entry of column [v] is [v+1] *)
Definition next_in_column (Lp Li : list nat) (v : nat) : Prop :=
  S Lp.[v] < Lp.[S v] /\ Li.[S Lp.[v]] = S v.

(** the last entry but one of row [v+1] is [v] *)
Definition prev_in_row (Lp Li : list nat) (v : nat) : Prop :=
  S Lp.[S v] < Lp.[S (S v)] /\ Li.[Lp.[S (S v)] - 2] = v.

(** [v+1] does not start a new block *)
Definition same_block (blk v : nat) : Prop := S v mod blk <> 0.
