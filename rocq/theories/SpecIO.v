(** Spec of the readers and writers: what it means that a compressed matrix holds the entries of a file. *)
From Verif Require Import Base Lib.

(** an entry (row, column, value), counted from 0 *)
Definition ent (V : Type) : Type := nat * nat * V.
Definition erow {V} (e : ent V) : nat := fst (fst e).
Definition ecol {V} (e : ent V) : nat := snd (fst e).
Definition eval {V} (e : ent V) : V := snd e.

(** the entries of column [c], in the order of the file *)
Definition in_col {V} (es : list (ent V)) (c : nat) : list (ent V) := filter (fun e => ecol e =? c) es.

(** the arrays [p], [i], [x] hold exactly the entries [es], column by column *)
Definition holds {V} {DV : Dflt V} (n : nat) (es : list (ent V)) (p : list nat) (i : list Z) (x : list V) : Prop :=
  length p = S n /\ p.[0] = 0 /\ p.[n] = length es /\ (forall c, c < n -> p.[c] <= p.[S c]) /\ length i = length es /\ length x = length es /\
  forall c, c < n -> Permutation (map (fun k => (i.[k], x.[k])) (seq p.[c] (p.[S c] - p.[c])))
                                 (map (fun e => (Z.of_nat (erow e), eval e)) (in_col es c)).

(** the file lists its entries column by column *)
Definition by_columns {V} (es : list (ent V)) : Prop := sorted_le (map ecol es).

(** valid positions *)
Definition fits {V} (m n : nat) (es : list (ent V)) : Prop := forall e, In e es -> erow e < m /\ ecol e < n.
