(** Spec of the level sets of blocks of columns. *)
From Verif Require Import Base Spec.

(** [super] cuts the columns [0..n) into [nodes] blocks, from the first column to the last, or ([lower] = false)
    from the last to the first, ending with -1 *)
Definition cutsZ (lower : bool) (n nodes : nat) (super : list Z) : Prop :=
  nodes < length super /\
  if lower then super.[0] = 0%Z /\ super.[nodes] = Z.of_nat n /\ forall s, s < nodes -> (super.[s] < super.[S s])%Z
  else super.[0] = (Z.of_nat n - 1)%Z /\ super.[nodes] = (-1)%Z /\ forall s, s < nodes -> (super.[S s] < super.[s])%Z.

(** column [v] is in block [s] *)
Definition block_has (lower : bool) (super : list Z) (s v : nat) : Prop :=
  if lower then (super.[s] <= Z.of_nat v < super.[S s])%Z else (super.[S s] < Z.of_nat v <= super.[s])%Z.

(** the column that stands for block [s] *)
Definition lead (super : list Z) (s : nat) : nat := Z.to_nat super.[s].

(** the leading column of block [s] holds an entry in a row of another block [t] *)
Definition lead_edge (lower : bool) (nodes : nat) (Lp Li : list nat) (super : list Z) (s t : nat) : Prop :=
  s < nodes /\ t < nodes /\ s <> t /\ exists v, entry Lp Li (lead super s) v /\ block_has lower super t v.

(** some column of block [s] holds an entry in a row of another block [t] *)
Definition block_edge (lower : bool) (nodes : nat) (Lp Li : list nat) (super : list Z) (s t : nat) : Prop :=
  s < nodes /\ t < nodes /\ s <> t /\ exists u v, block_has lower super s u /\ entry Lp Li u v /\ block_has lower super t v.

Definition upper_tri (n : nat) (Lp Li : list nat) : Prop := forall u v, edge n Lp Li u v -> v < u.

(** the matrix fits the order of the blocks *)
Definition tri_of (lower : bool) (n : nat) (Lp Li : list nat) : Prop :=
  if lower then diag_first n Lp Li /\ lower_tri n Lp Li else upper_tri n Lp Li.

(** two kernels over the same blocks: block [s] of the first is node [s], block [s] of the second is node
    [nodes + s].  Inside a kernel the leading columns of [A] and [C] give the edges; from the first to the
    second kernel every entry of [B] does. *)
Definition fused_edge (nodes : nat) (Ap Ai Bp Bi Cp Ci : list nat) (super : list Z) (x y : nat) : Prop :=
  lead_edge true nodes Ap Ai super x y \/
  (x < nodes /\ nodes <= y < 2 * nodes /\ exists u v, block_has true super x u /\ entry Bp Bi u v /\ block_has true super (y - nodes) v) \/
  (nodes <= x /\ nodes <= y /\ lead_edge true nodes Cp Ci super (x - nodes) (y - nodes)).

(** the column number used for a node *)
Definition code (n nodes : nat) (super : list Z) (x : nat) : nat := if x <? nodes then lead super x else lead super (x - nodes) + n.

(** the leading column of a block has every entry outside the block that another column of the block has *)
Definition lead_covers (lower : bool) (nodes : nat) (Lp Li : list nat) (super : list Z) : Prop :=
  forall s u v, s < nodes -> block_has lower super s u -> entry Lp Li u v -> entry Lp Li (lead super s) v \/ block_has lower super s v.

(** [k] non-empty levels of [lp], [ls] that hold [m] different numbers; level [l] holds exactly those of [at_level l] *)
Definition level_sets (k m : nat) (lp ls : list nat) (at_level : nat -> nat -> Prop) : Prop :=
  length lp = S k /\ lp.[0] = 0 /\ lp.[k] = m /\ (forall l, l < k -> lp.[l] < lp.[S l]) /\ length ls = m /\ NoDup ls /\
  (forall l x, l < k -> (in_level lp ls l x <-> at_level l x)) /\ (forall l x, at_level l x -> l < k).

(** some column of block [j] holds an entry in a row of block [t] *)
Definition meets (Ap Ai super : list nat) (j t : nat) : Prop :=
  exists u v, super.[j] <= u < super.[S j] /\ entry Ap Ai u v /\ super.[t] <= v < super.[S t].

(** [v] is the smallest row of the columns of block [j] *)
Definition smallest_row (Ap Ai super : list nat) (j v : nat) : Prop :=
  (exists u, super.[j] <= u < super.[S j] /\ entry Ap Ai u v) /\
  forall u w, super.[j] <= u < super.[S j] -> entry Ap Ai u w -> v <= w.
