(** Model of the preparation of the matrices by the demos: generate_matrices_from_mtx (utils/FusionDemo.cpp) and the same
    sequence of calls in example/sptrsv_demo.cpp and example/lbc_demo.cpp.  Built with METIS; without it
    generate_matrices_from_mtx passes a null pointer to csc_to_csr. *)
From Verif Require Import Base M_Mat M_Sym M_Metis.

Section Generate.
Context {V : Type} {DV : Dflt V}.
(** METIS_NodeND, see M_Metis *)
Variable node_nd : nat -> list nat -> list nat -> list nat.

(** the use of a pointer; a null pointer is [None] *)
Definition deref {A} (o : option A) : res A := match o with Some a => Ok a | None => Err OOB end.

(** FusionDemo.cpp 111-126, sptrsv_demo.cpp 80-94, lbc_demo.cpp 63-77: the reordering of L.  metis_perm_general replaces the
    array allocated before; int is a subset of Z. *)
Definition reorder_L (A : csc V) : res (csc V) :=
  full <- make_full A ;; full <- deref full ;;
  perm <- metis_perm_general node_nd full ;;
  L1 <- make_half (cn full) (cp full) (ci full) (cpat full) (cx full) true ;;
  Lt <- transpose_symmetric L1 (Some (map Z.of_nat perm)) ;; Lt <- deref Lt ;;
  L1_ord <- transpose_symmetric Lt None ;; deref L1_ord.

(** FusionDemo.cpp 109-135: the results are L2_csr, B and B_csr *)
Definition generate_matrices (A : csc V) : res (csc V * csc V * csc V) :=
  L1 <- reorder_L A ;;
  L2_csr <- csc_to_csr L1 ;;
  B <- make_full L1 ;; B <- deref B ;;
  B_csr <- csc_to_csr B ;;
  Ok (L2_csr, B, B_csr).
End Generate.
