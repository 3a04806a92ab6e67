(** C05, C48: the post-order of HDAGG. *)
From Verif Require Import Base Lib Spec Check M_PostOrder L_PostOrder.

(** C05.  For every acyclic graph (diagonal stored first), whatever the value of the
    stray read, the function returns a permutation of the nodes in which every
    dependence goes from an earlier to a later position. *)
Theorem C05_post_order_topological :
  forall junk n DAG_ptr DAG_set,
  wf_csc n DAG_ptr DAG_set -> diag_first n DAG_ptr DAG_set -> acyclic (edge n DAG_ptr DAG_set) ->
  exists po, computePostOrder junk n DAG_ptr DAG_set = Ok po /\ is_perm n po /\ forall i j, i < n -> j < n -> edge n DAG_ptr DAG_set po.[i] po.[j] -> i < j.
Proof.
  intros junk n Lp Li W DF AC. pose proof (computePostOrder_wp n Lp Li W DF AC junk) as H.
  apply wp_ok in H. exact H.
Qed.
Print Assumptions C05_post_order_topological.

(** a graph whose ids are not already in topological order *)
Example C05_case :
  wf_csc 4 [0;1;3;6;7] [0;1;0;2;3;1;3] /\ diag_first 4 [0;1;3;6;7] [0;1;0;2;3;1;3] /\
  acyclic (edge 4 [0;1;3;6;7] [0;1;0;2;3;1;3]) /\
  computePostOrder 77 4 [0;1;3;6;7] [0;1;0;2;3;1;3] = Ok [2;3;1;0].
Proof.
  splits; [now apply wf_cscb_ok|now apply diag_firstb_ok|now apply (acyclicb_ok [3;2;0;1])|vm_compute; reflexivity].
Qed.

(** C48.  On every non-empty acyclic graph the function reads the last element of an
    empty vector. *)
Theorem C48_post_order_reads_empty_stack :
  forall n DAG_ptr DAG_set,
  wf_csc n DAG_ptr DAG_set -> diag_first n DAG_ptr DAG_set -> acyclic (edge n DAG_ptr DAG_set) ->
  0 < n -> computePostOrder_strict n DAG_ptr DAG_set = Err OOB.
Proof. intros n Lp Li W DF AC Hn. exact (computePostOrder_strict_err n Lp Li W DF AC Hn). Qed.
Print Assumptions C48_post_order_reads_empty_stack.

Example C48_case : wf_csc 1 [0;1] [0] /\ diag_first 1 [0;1] [0] /\ lower_tri 1 [0;1] [0] /\
  computePostOrder_strict 1 [0;1] [0] = Err OOB.
Proof. splits; [now apply wf_cscb_ok|now apply diag_firstb_ok|now apply lower_trib_ok|vm_compute; reflexivity]. Qed.
