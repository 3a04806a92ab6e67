(** Spec for groupings of the nodes of a DAG. *)
From Verif Require Export Base Lib Spec SpecSolve.

(** [ng] non-empty groups that partition the nodes [0..n), as compact arrays *)
Definition grouping (n ng : nat) (gp gs : list nat) : Prop :=
  length gp = S ng /\ length gs = n /\ group_partition n ng gp gs /\ forall g, g < ng -> gp.[g] < gp.[S g].

(** groups appear by increasing smallest member *)
Definition by_smallest (ng : nat) (gp gs : list nat) : Prop :=
  forall g h, g < h -> h < ng -> exists u, in_level gp gs g u /\ forall v, in_level gp gs h v -> u < v.

Definition sizes_at_most (m ng : nat) (gp : list nat) : Prop := forall g, g < ng -> gp.[S g] - gp.[g] <= m.

(** every group is a tree of the DAG: all members but one, the root, have exactly one
    outgoing edge, and it stays in the group *)
Definition tree_groups (E : nat -> nat -> Prop) (ng : nat) (gp gs : list nat) : Prop :=
  forall g, g < ng -> exists r, in_level gp gs g r /\
    forall u, in_level gp gs g u -> u <> r ->
      exists p, E u p /\ in_level gp gs g p /\ forall w, E u w -> w = p.

(** every group is a chain of the DAG, listed from its first node on: a member that is
    not the last one has exactly one outgoing edge, to the next one, and the next one has no
    other incoming edge *)
Definition chain_groups (E : nat -> nat -> Prop) (ng : nat) (gp gs : list nat) : Prop :=
  forall g k, g < ng -> gp.[g] <= k -> S k < gp.[S g] ->
    E gs.[k] gs.[S k] /\ (forall w, E gs.[k] w -> w = gs.[S k]) /\ (forall u, E u gs.[S k] -> u = gs.[k]).

(** consequence of either: at most one member of a group has edges that leave the group *)
Definition one_exit (E : nat -> nat -> Prop) (ng : nat) (gp gs : list nat) : Prop :=
  forall g u v u' v', g < ng -> in_level gp gs g u -> in_level gp gs g u' ->
    ~ in_level gp gs g v -> ~ in_level gp gs g v' -> E u v -> E u' v' -> u = u'.
