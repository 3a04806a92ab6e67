(** Model of metis_partitioning (utils/metis_interface.cpp 15-42). *)
From Verif Require Import Base M_Mat M_Sym M_Metis.

Section Part.
Context {V : Type} {DV : Dflt V}.
Variable node_nd : nat -> list nat -> list nat -> list nat.
Variable kway : nat -> list nat -> list nat -> option (list nat) -> nat -> list Z.

(** The ordering of a matrix not marked symmetric is a null pointer (29, 45-48); a null matrix is dereferenced by make_full and by
    metis_partition_symmetric.  The ordering is deleted at the end (38). *)
Definition metis_partitioning (A : csc V) (npar : nat) : res (csc V * list Z) :=
  if cpat A then
    perm <- metis_perm_symmetric node_nd A ;;
    A1 <- transpose_symmetric A (match perm with None => None | Some p => Some (map Z.of_nat p) end) ;;
    match A1 with
    | None => Err OOB
    | Some A1 =>
        A2 <- make_full A1 ;;
        match A2 with
        | None => Err OOB
        | Some A2 => part <- metis_partition_symmetric kway A2 npar ;; Ok (A2, part)
        end
    end
  else
    _ <- metis_perm_general node_nd A ;;
    A2 <- copy_sparse A ;;
    part <- metis_partition_general kway A2 npar ;;
    Ok (A2, part).
End Part.
