(** print_csc and print_csr of utils/sparse_io.cpp (162-199) on characters. *)
From Coq Require Import Ascii String.
From Verif Require Import Base M_MMIO.
Local Open Scope nat_scope.
Import ListNotations.

Section PrintCSC.
Context {V : Type} {DV : Dflt V}.
Variable zero : V.                      (* 0, printed where Ax is null *)
Variable show_dbl : V -> text.          (* %.12f *)

(** print_csc (162-176) for [csr] = false, print_csr (178-192) for [csr] = true: they differ in the order of the two
    numbers only.  Ax is [None] for the null pointer.  print_csc of a CSC (197-199) passes n, not m. *)
Definition print_csc (csr : bool) (beg : text) (n : nat) (Ap Ai : list nat) (Ax : option (list V)) : res text :=
  nnz <- (if 0 <? n then rd Ap n else Ok 0) ;;
  for_ 0 n (fun i out =>
      b <- rd Ap i ;; e <- rd Ap (S i) ;;
      for_ b e (fun j out =>
        x <- match Ax with Some Ax => rd Ax j | None => Ok zero end ;;
        r <- rd Ai j ;;
        let '(r, c) := if csr then (i, r) else (r, i) in
        last <- rd Ap n ;;
        Ok (out ++ show_int (Z.of_nat r + 1) ++ [SP] ++ show_int (Z.of_nat c + 1) ++ [SP] ++ show_dbl x ++
            (if S j =? last then [] else [NL]))%list) out)
    (beg ++ [NL] ++ show_int (Z.of_nat n) ++ [SP] ++ show_int (Z.of_nat n) ++ [SP] ++ show_int (Z.of_nat nnz) ++ [NL])%list.
End PrintCSC.
