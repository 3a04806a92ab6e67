(** Spec for sparse matrices: what a compressed matrix contains. *)
From Verif Require Export Base Lib Spec.

(** [m] rows, [n] compressed columns; the arrays may be longer than needed *)
Definition wf_mat (m n : nat) (Ap Ai : list nat) : Prop :=
  n < length Ap /\ Ap.[0] = 0 /\ (forall i, i < n -> Ap.[i] <= Ap.[S i]) /\
  Ap.[n] <= length Ai /\ (forall k, k < Ap.[n] -> Ai.[k] < m).

(** the stored (index, value) pairs of column [c], in storage order *)
Definition col {V} `{Dflt V} (Ap Ai : list nat) (Ax : list V) (c : nat) : list (nat * V) :=
  map (fun k => (Ai.[k], Ax.[k])) (seq Ap.[c] (Ap.[S c] - Ap.[c])).

(** the pairs (column, value) of row [r] of a matrix given by its [n] columns, by
    increasing column *)
Definition row_of {V} (n : nat) (cols : nat -> list (nat * V)) (r : nat) : list (nat * V) :=
  flat_map (fun c => map (fun e => (c, snd e)) (filter (fun e => fst e =? r) (cols c))) (seq 0 n).

(** indices do not decrease along a column *)
Fixpoint nondecreasing {V} (l : list (nat * V)) : Prop :=
  match l with
  | [] => True
  | e :: t => (forall e', In e' t -> fst e <= fst e') /\ nondecreasing t
  end.

(** the entries of a column on or below (above) the diagonal *)
Definition half_col {V} (lower : bool) (cols : nat -> list (nat * V)) (c : nat) : list (nat * V) :=
  filter (fun e => if lower then c <=? fst e else fst e <=? c) (cols c).

(** column [c] of the symmetric matrix one of whose triangles is given: every stored
    entry (r, i) appears in column i, and in column r too if it is off the diagonal *)
Definition full_col {V} (n : nat) (cols : nat -> list (nat * V)) (c : nat) : list (nat * V) :=
  flat_map (fun i => flat_map (fun e =>
      (if i =? c then [e] else []) ++
      (if negb (fst e =? i) && (fst e =? c) then [(i, snd e)] else [])) (cols i)) (seq 0 n).

(** the result of a conversion: bucket [r] of the output is row [r] of the input.
    Without values only the indices are meant. *)
Definition rows_exact {V} `{Dflt V} (pat : bool) (m n : nat) (Ap Ai : list nat) (Ax : list V) (Bp Bi : list nat) (Bx : list V) : Prop :=
  wf_mat n m Bp Bi /\ Bp.[m] = Ap.[n] /\ (pat = false -> Ap.[n] <= length Bx) /\
  (forall r, r < m -> map fst (col Bp Bi Bx r) = map fst (row_of n (col Ap Ai Ax) r)) /\
  (pat = false -> forall r, r < m -> col Bp Bi Bx r = row_of n (col Ap Ai Ax) r).
