(** Properties of partition_by_bfs (C46) and of populate_children (C38). *)
From Coq Require Import ZifyBool ZifyNat.
From Verif Require Import Base Lib Lib2 Lib3 Spec Check M_Util P_Util L_Util.

(** For every graph, weight type (with any rounding), weights, targets and number of parts >= 1:
    the call ends without leaving its arrays or failing an assertion, returns one level of
    [part_no] parts, every node is in exactly one part, and every part but the last reaches its
    target unless no nodes are left. *)
Theorem C46_bfs_partition : forall (T : Type) (DT : Dflt T) (zero : T) (add : T -> T -> T) (ltb : T -> T -> bool)
    n dp di weight part_no ew,
  wf_csc n dp di -> n <= length weight -> part_no <= length ew -> 1 <= part_no ->
  exists ptr nodes, partition_by_bfs zero add ltb n dp di weight part_no ew = Ok ([0; part_no], ptr, nodes) /\
    is_perm n nodes /\ length ptr = S part_no /\ ptr.[0] = 0 /\ ptr.[part_no] = n /\
    (forall l, l < part_no -> ptr.[l] <= ptr.[S l]) /\
    (forall l, l < part_no - 1 -> ltb (total zero add weight (slice nodes ptr.[l] ptr.[S l])) ew.[l] = false \/ ptr.[S l] = n).
Proof.
  intros. destruct (partition_by_bfs_wp zero add ltb n dp di weight H H0 part_no ew H1 H2) as (ptr & nodes & E1 & E2 & E3 & E4 & E5 & E6 & E7).
  exists ptr, nodes. splits; auto. intros l Hl. destruct (E7 l) as [?|[?|?]]; auto; lia.
Qed.
Print Assumptions C46_bfs_partition.

Example C46_bfs_case : partition_by_bfs 0 Nat.add Nat.ltb 5 [0; 2; 3; 4; 5; 5] [2; 4; 3; 0; 1] [1; 1; 1; 1; 1] 2 (even_share 5 [1; 1; 1; 1; 1] 2)
  = Ok ([0; 2], [0; 3; 5], [0; 2; 4; 1; 3]) /\ wf_csc 5 [0; 2; 3; 4; 5; 5] [2; 4; 3; 0; 1].
Proof. split; [vm_compute; reflexivity|apply wf_cscb_ok; reflexivity]. Qed.

(** with no parts and at least one node the last part is written at index -1 *)
Theorem C46_bfs_no_parts : forall (T : Type) (DT : Dflt T) (zero : T) (add : T -> T -> T) (ltb : T -> T -> bool) n dp di weight ew,
  1 <= n -> partition_by_bfs zero add ltb n dp di weight 0 ew = Err OOB.
Proof. intros. now apply partition_by_bfs_zero. Qed.
Print Assumptions C46_bfs_no_parts.
