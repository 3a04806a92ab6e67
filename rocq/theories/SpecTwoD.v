(** Spec for the two-dimensional reordering: the iterations of a row, runs of
    consecutive rows, execution of a list of iterations. *)
From Verif Require Export Base Lib Spec.

(** the iterations (i, k, j) of row [i]: one for each stored entry, j its column *)
Definition row_iters (Lp Li : list nat) (i : nat) : list (nat * nat * nat) :=
  map (fun k => (i, k, Li.[k])) (seq Lp.[i] (Lp.[S i] - Lp.[i])).

Definition rows_iters (Lp Li : list nat) (rows : list nat) : list (nat * nat * nat) :=
  flat_map (row_iters Lp Li) rows.

(** the rows of part [p] of a schedule *)
Definition part_rows (part_ptr node_ptr : list nat) (p : nat) : list nat :=
  slice node_ptr part_ptr.[p] part_ptr.[S p].

(** the maximal runs i, i+1, i+2, ... of a list of rows *)
Inductive runs_of : list nat -> list (list nat) -> Prop :=
| runs_nil : runs_of [] []
| runs_first x : runs_of [x] [[x]]
| runs_new rows y x rs : runs_of (rows ++ [y]) rs -> x <> S y -> runs_of ((rows ++ [y]) ++ [x]) (rs ++ [[x]])
| runs_more rows y rs r : runs_of (rows ++ [y]) (rs ++ [r]) ->
    runs_of ((rows ++ [y]) ++ [S y]) (rs ++ [r ++ [S y]]).

(** by column, then by row, then by position in the row *)
Definition before2 (a b : nat * nat * nat) : Prop :=
  let '(i, k, j) := a in let '(i', k', j') := b in
  j < j' \/ (j = j' /\ (i < i' \/ (i = i' /\ k < k'))).

Definition column_major (l : list (nat * nat * nat)) : Prop :=
  forall a b, a < b -> b < length l -> before2 l.[a] l.[b].

(** one iteration updates x[i] from x[i] and x[j], in an arbitrary way *)
Definition run_iters {V} `{Dflt V} (f : nat -> nat -> nat -> V -> V -> V)
    (l : list (nat * nat * nat)) (x : list V) : list V :=
  fold_left (fun x '(i, k, j) => upd x i (f i k j x.[i] x.[j])) l x.

(** the forward substitution: the last entry of a row divides, the others subtract *)
Definition solve_iter {V} `{Dflt V} (fms : V -> V -> V -> V) (quo : V -> V -> V) (Lp : list nat) (Lx : list V)
    (i k j : nat) (a d : V) : V :=
  if S k =? Lp.[S i] then quo a Lx.[k] else fms a Lx.[k] d.
