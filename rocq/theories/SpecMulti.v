(** What it means for a graph to be several copies of a graph, or several graphs side by side. *)
From Verif Require Import Base Spec.

(** [v] stands in column [u], but not in its first cell *)
Definition tail_edge (n : nat) (Lp Li : list nat) (u v : nat) : Prop :=
  u < n /\ exists k, Lp.[u] < k < Lp.[S u] /\ Li.[k] = v.

(** [K] copies of a graph on [0..n): node [u] of copy [q] is [u + n*q]; every node also precedes itself in the next copy *)
Definition copies_edge (n K : nat) (E : nat -> nat -> Prop) (x y : nat) : Prop :=
  (exists q u v, q < K /\ u < n /\ v < n /\ E u v /\ x = u + n * q /\ y = v + n * q) \/
  (exists q u, S q < K /\ u < n /\ x = u + n * q /\ y = u + n * S q).

(** with the diagonal first in each column these are the edges *)
Lemma tail_edge_diag_first n Lp Li u v : diag_first n Lp Li -> (tail_edge n Lp Li u v <-> edge n Lp Li u v).
Proof.
  intros HD. split.
  - intros (Hu & k & Hk & E). destruct (HD u Hu) as (H1 & H2 & H3). split; [auto|split].
    + exists k. split; [lia|auto].
    + intros ->. now apply (H3 k).
  - intros (Hu & (k & Hk & E) & Hne). split; [auto|]. exists k. split; [|auto].
    destruct (HD u Hu) as (H1 & H2 & H3). destruct (Nat.eq_dec k Lp.[u]) as [->|]; [congruence|lia].
Qed.

(** the graphs [Gs] side by side, with further edges [D q u v] from node [u] of graph [q] to node [v] of graph [q+1] *)
Definition side_edge (n : nat) (Gs : list (list nat * list nat)) (D : nat -> nat -> nat -> Prop) (x y : nat) : Prop :=
  (exists q u v, q < length Gs /\ edge n (fst Gs.[q]) (snd Gs.[q]) u v /\ x = u + n * q /\ y = v + n * q) \/
  (exists q u v, S q < length Gs /\ u < n /\ D q u v /\ x = u + n * q /\ y = v + n * S q).
