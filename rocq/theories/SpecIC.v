(** Spec for the incomplete Cholesky factorisation of a lower triangle stored by columns. *)
From Coq Require Import Sorting.Sorted.
From Verif Require Export Base Lib Spec.

(** the lower triangle: sorted columns, the diagonal first, everything else below it *)
Definition chol_pattern (n : nat) (Lp Li : list nat) : Prop :=
  wf_csc n Lp Li /\ lower_tri n Lp Li /\ sorted_cols n Lp Li /\ diag_first n Lp Li.

(** positions [m], [l] of the factors L[c,u] and L[r,u] of one term of the sum for entry (r,c):
    some column u < c holds both rows *)
Definition term_at (n : nat) (Lp Li : list nat) (r c m l : nat) : Prop :=
  exists u, u < n /\ u < c /\ Lp.[u] <= m < Lp.[S u] /\ Lp.[u] <= l < Lp.[S u] /\ Li.[m] = c /\ Li.[l] = r.

(** [ml] enumerates the terms of entry [k] of column [c] *)
Definition terms_of (n : nat) (Lp Li : list nat) (c k : nat) (ml : list (nat * nat)) : Prop :=
  NoDup ml /\ forall m l, In (m, l) ml <-> term_at n Lp Li Li.[k] c m l.

(** [y] is the incomplete factor of [x]: every entry of column [c] is its original value minus
    the products of its terms, subtracted one after the other in an order satisfying [ord],
    then divided by the square root of the pivot (the pivot itself) or by the new pivot *)
Definition ichol {V} `{Dflt V} (fms : V -> V -> V -> V) (quo : V -> V -> V) (root : V -> V)
    (ord : list (nat * nat) -> Prop) (n : nat) (Lp Li : list nat) (x y : list V) : Prop :=
  length y = length x /\ (forall k, Lp.[n] <= k -> y.[k] = x.[k]) /\
  forall c k, c < n -> Lp.[c] <= k < Lp.[S c] ->
    exists ml, terms_of n Lp Li c k ml /\ ord ml /\
      let s := fold_left (fun v p => fms v y.[fst p] y.[snd p]) ml x.[k] in
      y.[k] = if k =? Lp.[c] then quo s (root s) else quo s y.[Lp.[c]].

(** the terms in the order of the columns they come from *)
Definition by_column (ml : list (nat * nat)) : Prop := StronglySorted lt (map fst ml).
Definition any_order (ml : list (nat * nat)) : Prop := True.
