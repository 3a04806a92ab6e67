(** Spec for the triangular solves: what the solution is, what a row depends on. *)
From Verif Require Export Base Lib Spec.

(** row-compressed matrix with a non-empty tail entry (the diagonal) in every row *)
Definition wf_rows (n : nat) (Lp Li : list nat) : Prop :=
  wf_csc n Lp Li /\ forall i, i < n -> Lp.[i] < Lp.[S i].

(** row [v] reads the unknown [u]: an entry of row [v] other than its last one *)
Definition row_dep (n : nat) (Lp Li : list nat) (u v : nat) : Prop :=
  v < n /\ exists j, Lp.[v] <= j < Lp.[S v] - 1 /\ Li.[j] = u.

(** every row's entries before the last are strictly left of the diagonal *)
Definition rows_lower (n : nat) (Lp Li : list nat) : Prop :=
  forall u v, row_dep n Lp Li u v -> u < v.

(** [y] solves the system with right-hand side [b], with the roundings of the
    left-to-right evaluation of each row:
    y[i] = (..(b[i] - L[i,c1] y[c1]) - ..) / L[i,i] *)
Definition forward_solution {V} `{Dflt V} (fms : V -> V -> V -> V) (quo : V -> V -> V)
    (n : nat) (Lp Li : list nat) (Lx b y : list V) : Prop :=
  length y = length b /\ (forall i, n <= i -> y.[i] = b.[i]) /\
  forall i, i < n ->
    y.[i] = quo (fold_left (fun a j => fms a Lx.[j] y.[Li.[j]]) (seq Lp.[i] (Lp.[S i] - 1 - Lp.[i])) b.[i])
                Lx.[Lp.[S i] - 1].

(** * Groups of rows *)

(** [ng] groups that partition [0..n) *)
Definition group_partition (n ng : nat) (groupPtr groupSet : list nat) : Prop :=
  level_partition n ng groupPtr groupSet.

(** dependences inside a group follow the order of the group's list *)
Definition group_ordered (E : nat -> nat -> Prop) (ng : nat) (groupPtr groupSet : list nat) : Prop :=
  forall g k k', g < ng -> groupPtr.[g] <= k < groupPtr.[S g] -> groupPtr.[g] <= k' < groupPtr.[S g] ->
    E groupSet.[k] groupSet.[k'] -> k < k'.

(** group [h] depends on group [g] *)
Definition quotient (E : nat -> nat -> Prop) (ng : nat) (groupPtr groupSet : list nat) (g h : nat) : Prop :=
  g < ng /\ h < ng /\ g <> h /\
  exists u v, in_level groupPtr groupSet g u /\ in_level groupPtr groupSet h v /\ E u v.
