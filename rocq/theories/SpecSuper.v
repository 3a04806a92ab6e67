(** Spec for supernodes and the blocked format. *)
From Verif Require Export Base Lib Spec.

(** the entries of column (row) [u] in storage order *)
Definition column (Lp Li : list nat) (u : nat) : list nat := slice Li Lp.[u] Lp.[S u].

(** [c] cuts [0..n) into consecutive non-empty runs of at most [w] nodes; every node of a run is [same] as
    its first one; a run ends only at width [w], at the end, or before a node that is not [same] as its first *)
Definition max_runs (n w : nat) (same : nat -> nat -> Prop) (c : list nat) : Prop :=
  0 < length c /\ c.[0] = 0 /\ c.[length c - 1] = n /\
  forall s, S s < length c -> c.[s] < c.[S s] <= c.[s] + w /\
    (forall v, c.[s] <= v < c.[S s] -> same c.[s] v) /\
    (c.[S s] = n \/ c.[S s] = c.[s] + w \/ ~ same c.[s] c.[S s]).

(** columns of a lower triangular matrix: column [v] is column [first] without its first [v - first] entries *)
Definition same_below (Lp Li : list nat) (first v : nat) : Prop :=
  v - first <= length (column Lp Li first) /\ column Lp Li v = skipn (v - first) (column Lp Li first).

(** rows of a lower triangular matrix: row [v] is row [first] followed by [v - first] more entries *)
Definition same_left (Lp Li : list nat) (first v : nat) : Prop :=
  exists t, length t = v - first /\ column Lp Li v = column Lp Li first ++ t.

(** columns of an upper triangular matrix: column [v] is column [first] without its last [first - v] entries *)
Definition same_above (Lp Li : list nat) (first v : nat) : Prop :=
  exists t, length t = first - v /\ column Lp Li first = column Lp Li v ++ t.

(** the same from the last node to the first: [c] starts with n-1 and ends with -1 *)
Definition max_runs_back (n w : nat) (same : nat -> nat -> Prop) (c : list Z) : Prop :=
  0 < length c /\ (c.[0] = Z.of_nat n - 1)%Z /\ c.[length c - 1] = (-1)%Z /\
  forall s, S s < length c -> (0 <= c.[s])%Z /\ (c.[S s] < c.[s] <= c.[S s] + Z.of_nat w)%Z /\
    (forall v, (c.[S s] < Z.of_nat v <= c.[s])%Z -> same (Z.to_nat c.[s]) v) /\
    (c.[S s] = (-1)%Z \/ (c.[s] = c.[S s] + Z.of_nat w)%Z \/ ~ same (Z.to_nat c.[s]) (Z.to_nat c.[S s])).

(** diagonal last in every row, as in a lower triangular matrix stored by rows with sorted rows *)
Definition diag_last (n : nat) (Lp Li : list nat) : Prop :=
  forall u, u < n -> Lp.[u] < Lp.[S u] /\ Li.[Lp.[S u] - 1] = u.

(** an edge of [E] leads from run [s] to another run [t] *)
Definition run_edge (E : nat -> nat -> Prop) (c : list nat) (s t : nat) : Prop :=
  s <> t /\ S s < length c /\ S t < length c /\ exists u v, c.[s] <= u < c.[S s] /\ c.[t] <= v < c.[S t] /\ E u v.

Section Blocks.
Context {V : Type} `{DV : Dflt V}.

(** [v] is the value of the matrix in row [r] of column [j]; zero ([dflt]) where nothing is stored *)
Definition value_at (Ap Ai : list nat) (Ax : list V) (j r : nat) (v : V) : Prop :=
  (exists q, Ap.[j] <= q < Ap.[S j] /\ Ai.[q] = r /\ v = Ax.[q]) \/ (~ entry Ap Ai j r /\ v = dflt).

(** [super] cuts [0..n) into [nodes] non-empty blocks *)
Definition block_cuts (n nodes : nat) (super : list nat) : Prop :=
  nodes < length super /\ super.[0] = 0 /\ super.[nodes] = n /\ forall s, s < nodes -> super.[s] < super.[S s].

(** block [s]: from position [p] of [mi] and [mx], one column after the other, all with the same [rows]: the
    rows that hold an entry in some column of the block, increasing *)
Definition block_exact (Ap Ai : list nat) (Ax : list V) (sb se p : nat) (rows mi : list nat) (mx : list V) : Prop :=
  sorted_lt rows /\ (forall r, In r rows <-> exists j, sb <= j < se /\ entry Ap Ai j r) /\
  forall j k, sb <= j < se -> k < length rows ->
    mi.[p + (j - sb) * length rows + k] = rows.[k] /\ value_at Ap Ai Ax j rows.[k] mx.[p + (j - sb) * length rows + k].

(** the blocks follow each other without gaps and fill the arrays *)
Definition blocks_exact (Ap Ai : list nat) (Ax : list V) (nodes : nat) (super : list nat) (nnz : nat) (p mi : list nat) (mx : list V) (nrows : list nat) : Prop :=
  nodes < length p /\ p.[0] = 0 /\ p.[nodes] = nnz /\ length mi = nnz /\ length mx = nnz /\ length nrows = nodes /\
  forall s, s < nodes -> exists rows, length rows = nrows.[s] /\ p.[S s] = p.[s] + (super.[S s] - super.[s]) * nrows.[s] /\
    block_exact Ap Ai Ax super.[s] super.[S s] p.[s] rows mi mx.
End Blocks.
