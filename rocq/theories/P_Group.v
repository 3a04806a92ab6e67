(** Properties of the grouping functions (C19-C24, C47). *)
From Coq Require Import List Arith Lia Bool Permutation ZifyBool ZifyNat.
From Verif Require Import Base Lib Lib2 Lib3 Spec SpecSolve SpecGroup Check CheckS CheckG M_PostOrder M_Sched L_Sched M_Mat M_Group
  L_Group L_Group2 L_Group3 L_Group4 L_Group5 L_Group6 L_Group7 L_Group8 L_Ungroup L_Final.
Import ListNotations.

(** a lower triangular graph as the tree groupings take it: vectors of the exact size,
    one diagonal entry per column, at least one node *)
Definition tri_input (n : nat) (Lp Li : list nat) : Prop :=
  wf_csc n Lp Li /\ length Lp = S n /\ length Li = Lp.[n] /\ one_diag n Lp Li /\ lower_tri n Lp Li /\ 0 < n.

(** [p],[s] is a compact graph on the groups whose entries are exactly the entries
    between the groups' members *)
Definition exact_quotient (n : nat) (Lp Li : list nat) (ng : nat) (gp gs p s : list nat) : Prop :=
  wf_csc ng p s /\ sorted_cols ng p s /\ length p = S ng /\ length s = p.[ng] /\
  forall g h, g < ng -> (entry p s g h <-> h < ng /\ exists u v, in_level gp gs g u /\ in_level gp gs h v /\ entry Lp Li u v).

(** * C19 *)

Theorem C19_group_dag_exact :
  forall n Lp Li ng gp gs, wf_csc n Lp Li -> grouping n ng gp gs ->
  exists p s, buildGroupDAG n ng gp gs Lp Li = Ok (p, s) /\
    exact_quotient n Lp Li ng gp gs p s /\
    (forall g h, edge ng p s g h <-> quotient (edge n Lp Li) ng gp gs g h) /\
    (one_diag n Lp Li -> one_diag ng p s).
Proof.
  intros n Lp Li ng gp gs W (G1 & G2 & G3 & G4).
  assert (G : wp (buildGroupDAG n ng gp gs Lp Li) (fun r => exact_quotient n Lp Li ng gp gs (fst r) (snd r) /\
      (forall g h, edge ng (fst r) (snd r) g h <-> quotient (edge n Lp Li) ng gp gs g h) /\ (one_diag n Lp Li -> one_diag ng (fst r) (snd r)))).
  { apply buildGroupDAG_wp; auto; try lia. intros p s X. simpl. splits; auto.
    - intros g h. apply (group_dag_quotient n ng gp gs Lp Li); [auto|lia|lia|exact X].
    - intros HD. apply (group_dag_diag n ng gp gs Lp Li); [auto|lia|lia|exact X|auto|auto]. }
  destruct (buildGroupDAG n ng gp gs Lp Li) as [(p & s)|]; [|contradiction]. exists p, s. auto.
Qed.
Print Assumptions C19_group_dag_exact.

(** two groups {0,2} and {1,3} of 0 -> 1, 0 -> 2, 1 -> 3 *)
Example C19_case : wf_csc 4 [0;3;5;6;7] [0;1;2;1;3;2;3] /\ grouping 4 2 [0;2;4] [0;2;1;3] /\
  buildGroupDAG 4 2 [0;2;4] [0;2;1;3] [0;3;5;6;7] [0;1;2;1;3;2;3] = Ok ([0;2;3], [0;1;1]).
Proof. split; [now apply wf_cscb_ok|]. split; [now apply groupingb_ok|vm_compute; reflexivity]. Qed.

(** * C20 *)

Theorem C20_tree_grouping :
  forall restr n Lp Li, tri_input n Lp Li -> 0 < restr ->
  exists ng gp gs, treeBasedGrouping restr n Lp Li = Ok (ng, gp, gs) /\
    grouping n ng gp gs /\ by_smallest ng gp gs /\ sizes_at_most restr ng gp /\
    (n <= restr -> tree_groups (edge n Lp Li) ng gp gs /\ one_exit (edge n Lp Li) ng gp gs).
Proof.
  intros restr n Lp Li (W & H1 & H2 & HD & HT & Hn) HR.
  assert (G : wp (treeBasedGrouping restr n Lp Li) (fun r => let '(ng, gp, gs) := r in tree_result n Lp Li restr (n <= restr) ng gp gs))
    by (apply treeBasedGrouping_wp; auto).
  destruct (treeBasedGrouping restr n Lp Li) as [((ng & gp) & gs)|]; [|contradiction].
  destruct G as (T1 & T2 & T3 & T4 & T5). exists ng, gp, gs. splits; auto. intros Hw. split; auto. apply tree_groups_one_exit; auto.
Qed.
Print Assumptions C20_tree_grouping.

Theorem C20_tree_grouping_bfs :
  forall restr n Lp Li, tri_input n Lp Li -> 0 < restr ->
  exists ng gp gs, treeBasedGroupingBFS restr n Lp Li = Ok (ng, gp, gs) /\
    grouping n ng gp gs /\ by_smallest ng gp gs /\ sizes_at_most restr ng gp /\
    tree_groups (edge n Lp Li) ng gp gs /\ one_exit (edge n Lp Li) ng gp gs.
Proof.
  intros restr n Lp Li (W & H1 & H2 & HD & HT & Hn) HR.
  assert (G : wp (treeBasedGroupingBFS restr n Lp Li) (fun r => let '(ng, gp, gs) := r in tree_result n Lp Li restr True ng gp gs))
    by (apply treeBasedGroupingBFS_wp; auto).
  destruct (treeBasedGroupingBFS restr n Lp Li) as [((ng & gp) & gs)|]; [|contradiction].
  destruct G as (T1 & T2 & T3 & T4 & T5). exists ng, gp, gs. splits; auto. apply tree_groups_one_exit; auto.
Qed.
Print Assumptions C20_tree_grouping_bfs.

(** * C21 *)

Theorem C21_tree_quotient_acyclic :
  forall restr n Lp Li ng gp gs, tri_input n Lp Li -> 0 < restr ->
  treeBasedGrouping restr n Lp Li = Ok (ng, gp, gs) \/ treeBasedGroupingBFS restr n Lp Li = Ok (ng, gp, gs) ->
  acyclic (quotient (edge n Lp Li) ng gp gs).
Proof.
  intros restr n Lp Li ng gp gs (W & H1 & H2 & HD & HT & Hn) HR [E|E].
  - assert (G : wp (treeBasedGrouping restr n Lp Li) (fun r => let '(ng, gp, gs) := r in tree_result n Lp Li restr (n <= restr) ng gp gs))
      by (apply treeBasedGrouping_wp; auto).
    rewrite E in G. apply G.
  - assert (G : wp (treeBasedGroupingBFS restr n Lp Li) (fun r => let '(ng, gp, gs) := r in tree_result n Lp Li restr True ng gp gs))
      by (apply treeBasedGroupingBFS_wp; auto).
    rewrite E in G. apply G.
Qed.
Print Assumptions C21_tree_quotient_acyclic.

(** 0 -> 2 -> 3, 1 -> 3, 3 -> 5, 4 -> 5, 4 -> 6 *)
Example C20_C21_case : tri_input 7 [0;2;4;6;8;11;12;13] [0;2;1;3;2;3;3;5;4;5;6;5;6] /\
  treeBasedGrouping 7 7 [0;2;4;6;8;11;12;13] [0;2;1;3;2;3;3;5;4;5;6;5;6] = Ok (3, [0;5;6;7], [5;3;1;2;0;4;6]) /\
  treeBasedGrouping 2 7 [0;2;4;6;8;11;12;13] [0;2;1;3;2;3;3;5;4;5;6;5;6] = Ok (5, [0;1;3;5;6;7], [0;1;2;5;3;4;6]) /\
  treeBasedGroupingBFS 7 7 [0;2;4;6;8;11;12;13] [0;2;1;3;2;3;3;5;4;5;6;5;6] = Ok (4, [0;4;5;6;7], [3;1;2;0;4;5;6]).
Proof. splits; try (vm_compute; reflexivity). now apply tri_inputb_parts. Qed.

(** without nodes the last element of an empty vector is read (1376, 1413) *)
Theorem C20_no_nodes_out_of_bounds : forall restr, treeBasedGrouping restr 0 [0] [] = Err OOB.
Proof. reflexivity. Qed.

(** * C22 *)

(** a group edge from a larger to a smaller group id, though the DAG is lower triangular *)
Theorem C22_group_dag_triangular_refuted :
  exists n Lp Li ng gp gs p s, tri_input n Lp Li /\ treeBasedGrouping n n Lp Li = Ok (ng, gp, gs) /\
    buildGroupDAG n ng gp gs Lp Li = Ok (p, s) /\ ~ lower_tri ng p s.
Proof.
  exists 4, [0;2;5;6;7], [0;2;1;2;3;2;3], 3, [0;2;3;4], [2;0;1;3], [0;1;4;5], [0;0;1;2;2].
  splits; try (vm_compute; reflexivity); [now apply tri_inputb_parts|]. intros HT.
  assert (He : edge 3 [0;1;4;5] [0;0;1;2;2] 1 0). { split; [lia|]. split; [|lia]. exists 1. split; [vm_compute; lia|reflexivity]. }
  apply HT in He. lia.
Qed.
Print Assumptions C22_group_dag_triangular_refuted.

(** * C23 *)

Theorem C23_chain_grouping :
  forall n Lp Li, wf_csc n Lp Li -> diag_first n Lp Li -> lower_tri n Lp Li -> sorted_cols n Lp Li -> 0 < n ->
  exists ng gp gs, chainGrouping n Lp Li = Ok (ng, gp, gs) /\
    grouping n ng gp gs /\ by_smallest ng gp gs /\ chain_groups (edge n Lp Li) ng gp gs /\
    acyclic (quotient (edge n Lp Li) ng gp gs).
Proof.
  intros n Lp Li W HF HT HS Hn.
  assert (G : wp (chainGrouping n Lp Li) (fun r => let '(ng, gp, gs) := r in chain_result n Lp Li ng gp gs))
    by (apply chainGrouping_wp; auto).
  destruct (chainGrouping n Lp Li) as [((ng & gp) & gs)|]; [|contradiction].
  destruct G as (T1 & T2 & T3 & T4). exists ng, gp, gs. splits; auto.
Qed.
Print Assumptions C23_chain_grouping.

(** 0 -> 2 -> 3, 1 -> 3, 3 -> 4, 4 -> 5 and 4 -> 6 *)
Example C23_case : let Lp := [0;2;4;6;8;11;12;13] in let Li := [0;2;1;3;2;3;3;4;4;5;6;5;6] in
  wf_csc 7 Lp Li /\ diag_first 7 Lp Li /\ lower_tri 7 Lp Li /\ sorted_cols 7 Lp Li /\
  chainGrouping 7 Lp Li = Ok (5, [0;2;3;5;6;7], [0;2;1;3;4;5;6]).
Proof.
  cbv zeta. splits; [now apply wf_cscb_ok|now apply diag_firstb_ok|now apply lower_trib_ok|now apply sorted_colsb_ok|vm_compute; reflexivity].
Qed.

(** * C24 *)

(** Expanding a schedule of the groups.  [lp],[ptr],[nd] is the schedule of the groups; the
    arrays of the result keep the levels, and part [p] runs the nodes of the groups of part [p]. *)
Theorem C24_ungroup_sorted :
  forall junk dag n Lp Li ng gp gs no lp ptr nd,
  wf_csc n Lp Li -> lower_tri n Lp Li -> grouping n ng gp gs ->
  part_schedule ng (quotient (edge n Lp Li) ng gp gs) no lp ptr nd ->
  exists pp np, ungrouping junk n no lp ptr nd gp gs dag true false = Ok (pp, np) /\
    length pp = S lp.[no] /\ length np = n /\ valid_schedule n (edge n Lp Li) no lp pp np.
Proof.
  intros junk dag n Lp Li ng gp gs no lp ptr nd W HT G (P1 & P2 & P3).
  assert (H : wp (ungrouping junk n no lp ptr nd gp gs dag true false) (fun r => length (fst r) = S lp.[no] /\ length (snd r) = n /\
      valid_schedule n (edge n Lp Li) no lp (fst r) (snd r))).
  { apply (ungrouping_sorted_wp n ng gp gs (edge n Lp Li) no lp ptr nd G (fun u v He => wf_edge_lt n Lp Li W u v He) P1 P2 P3 Lp Li eq_refl). intros; simpl; splits; auto. }
  destruct (ungrouping junk n no lp ptr nd gp gs dag true false) as [(pp & np)|]; [|contradiction]. simpl in H. destruct H as (? & ? & ?). exists pp, np. splits; auto.
Qed.
Print Assumptions C24_ungroup_sorted.

(** the post order works for any DAG *)
Theorem C24_ungroup_post :
  forall junk n Lp Li ng gp gs no lp ptr nd,
  wf_csc n Lp Li -> diag_first n Lp Li -> acyclic (edge n Lp Li) -> grouping n ng gp gs ->
  part_schedule ng (quotient (edge n Lp Li) ng gp gs) no lp ptr nd ->
  exists pp np, ungrouping junk n no lp ptr nd gp gs (Some (Lp, Li)) false true = Ok (pp, np) /\
    length pp = S lp.[no] /\ length np = n /\ valid_schedule n (edge n Lp Li) no lp pp np.
Proof.
  intros junk n Lp Li ng gp gs no lp ptr nd W HF HA G (P1 & P2 & P3).
  assert (H : wp (ungrouping junk n no lp ptr nd gp gs (Some (Lp, Li)) false true) (fun r => length (fst r) = S lp.[no] /\ length (snd r) = n /\
      valid_schedule n (edge n Lp Li) no lp (fst r) (snd r))).
  { apply (ungrouping_post_wp n ng gp gs (edge n Lp Li) no lp ptr nd G (fun u v He => wf_edge_lt n Lp Li W u v He) P1 P2 P3 Lp Li eq_refl W); auto. }
  destruct (ungrouping junk n no lp ptr nd gp gs (Some (Lp, Li)) false true) as [(pp & np)|]; [|contradiction]. simpl in H. destruct H as (? & ? & ?). exists pp, np. splits; auto.
Qed.
Print Assumptions C24_ungroup_post.

(** without reordering the orders of the group schedule and of the members must already be right *)
Theorem C24_ungroup_plain :
  forall junk dag n Lp Li ng gp gs no lp ptr nd,
  wf_csc n Lp Li -> grouping n ng gp gs -> group_ordered (edge n Lp Li) ng gp gs ->
  valid_schedule ng (quotient (edge n Lp Li) ng gp gs) no lp ptr nd ->
  exists pp np, ungrouping junk n no lp ptr nd gp gs dag false false = Ok (pp, np) /\
    length pp = S lp.[no] /\ length np = n /\ valid_schedule n (edge n Lp Li) no lp pp np.
Proof.
  intros junk dag n Lp Li ng gp gs no lp ptr nd W G GO VS. pose proof (valid_part _ _ _ _ _ _ VS) as (P1 & P2 & P3). destruct VS as (_ & _ & V3).
  assert (H : wp (ungrouping junk n no lp ptr nd gp gs dag false false) (fun r => length (fst r) = S lp.[no] /\ length (snd r) = n /\
      valid_schedule n (edge n Lp Li) no lp (fst r) (snd r))).
  { apply (ungrouping_plain_wp n ng gp gs (edge n Lp Li) no lp ptr nd G (fun u v He => wf_edge_lt n Lp Li W u v He) P1 P2 P3). intros; simpl; splits; auto. }
  destruct (ungrouping junk n no lp ptr nd gp gs dag false false) as [(pp & np)|]; [|contradiction]. simpl in H. destruct H as (? & ? & ?). exists pp, np. splits; auto.
Qed.
Print Assumptions C24_ungroup_plain.

(** asking for both orders, or for the post order without the graph, throws *)
Theorem C24_ungroup_throws :
  forall junk n Lp Li ng gp gs no lp ptr nd,
  wf_csc n Lp Li -> grouping n ng gp gs -> part_schedule ng (quotient (edge n Lp Li) ng gp gs) no lp ptr nd ->
  ungrouping junk n no lp ptr nd gp gs (Some (Lp, Li)) true true = Err Throw /\
  forall sort_order, ungrouping junk n no lp ptr nd gp gs None sort_order true = Err Throw.
Proof.
  intros junk n Lp Li ng gp gs no lp ptr nd W G (P1 & P2 & P3). split; [|reflexivity].
  assert (H : wp (unpack_groups no lp ptr nd gp gs) (fun _ => True)) by (apply (unpack_groups_wp n ng gp gs (edge n Lp Li) no lp ptr nd G (fun u v He => wf_edge_lt n Lp Li W u v He) P1 P2); auto).
  unfold ungrouping. cbn [andb]. destruct (unpack_groups no lp ptr nd gp gs) as [(pp & np)|]; [reflexivity|contradiction].
Qed.
Print Assumptions C24_ungroup_throws.

(** the tree groups {0,2},{1},{3} of 0 -> 2, 1 -> 2, 1 -> 3; groups 1, then 0 and 2 in one part *)
Example C24_case : let Lp := [0;2;5;6;7] in let Li := [0;2;1;2;3;2;3] in let gp := [0;2;3;4] in let gs := [2;0;1;3] in
  wf_csc 4 Lp Li /\ diag_first 4 Lp Li /\ lower_tri 4 Lp Li /\ grouping 4 3 gp gs /\
  valid_schedule 3 (quotient (edge 4 Lp Li) 3 gp gs) 2 [0;1;2] [0;1;3] [1;0;2] /\
  ungrouping 9 4 2 [0;1;2] [0;1;3] [1;0;2] gp gs None true false = Ok ([0;1;4], [1;0;2;3]) /\
  ungrouping 9 4 2 [0;1;2] [0;1;3] [1;0;2] gp gs (Some (Lp, Li)) false true = Ok ([0;1;4], [1;0;2;3]) /\
  ungrouping 9 4 2 [0;1;2] [0;1;3] [1;0;2] gp gs None false false = Ok ([0;1;4], [1;2;0;3]).
Proof.
  cbv zeta. splits; try (vm_compute; reflexivity); [now apply wf_cscb_ok|now apply diag_firstb_ok|now apply lower_trib_ok|now apply groupingb_ok|].
  eapply valid_scheduleb_ok; [apply quotientb_ok, edgeb_ok|vm_compute; reflexivity].
Qed.

(** the members of a tree group are not in order, so plain expansion can run node 2 before
    node 0 it depends on; the chain groups are in order *)
Theorem C24_tree_groups_unordered_refuted :
  ~ (forall n Lp Li ng gp gs, tri_input n Lp Li -> treeBasedGrouping n n Lp Li = Ok (ng, gp, gs) -> group_ordered (edge n Lp Li) ng gp gs).
Proof.
  intros H. assert (T : tri_input 4 [0;2;5;6;7] [0;2;1;2;3;2;3]) by now apply tri_inputb_parts.
  specialize (H 4 [0;2;5;6;7] [0;2;1;2;3;2;3] 3 [0;2;3;4] [2;0;1;3] T eq_refl).
  specialize (H 0 1 0 ltac:(lia) ltac:(vm_compute; lia) ltac:(vm_compute; lia)). assert (He : edge 4 [0;2;5;6;7] [0;2;1;2;3;2;3] 0 2).
  { split; [lia|]. split; [|lia]. exists 1. split; [vm_compute; lia|reflexivity]. }
  specialize (H He). lia.
Qed.
Print Assumptions C24_tree_groups_unordered_refuted.

Theorem C24_chain_groups_ordered :
  forall n Lp Li ng gp gs, lower_tri n Lp Li -> chain_groups (edge n Lp Li) ng gp gs -> group_ordered (edge n Lp Li) ng gp gs.
Proof.
  intros n Lp Li ng gp gs HT HC g k k' Hg Hk Hk' He.
  assert (HM : forall a b, a < b -> gp.[g] <= a -> b < gp.[S g] -> gs.[a] < gs.[b]).
  { intros a b Hab. induction Hab as [|b Hab IH]; intros Ha Hb.
    - apply HT. now apply (HC g a).
    - specialize (IH Ha ltac:(lia)). assert (gs.[b] < gs.[S b]); [|lia]. apply HT. apply (HC g b); auto; lia. }
  apply HT in He. destruct (lt_eq_lt_dec k k') as [[|E]|L]; auto; [subst; lia|]. specialize (HM k' k L). lia.
Qed.
Print Assumptions C24_chain_groups_ordered.

(** * C47 *)

(** the groups are the non-empty parts of the schedule and the graph is their exact
    quotient; for a schedule whose levels respect the dependences it is lower triangular *)
Theorem C47_final_schedule_dag :
  forall n Lp Li no lp ptr nd, wf_csc n Lp Li -> sched_wf n no lp ptr nd -> sched_complete n nd ->
  exists ng gp gs p s, getFinalScheduleDAG n no lp ptr nd Lp Li = Ok (ng, gp, gs, (p, s)) /\
    grouping n ng gp gs /\ (forall k, k < n -> gs.[k] = nd.[k]) /\
    (forall g, g < ng -> exists q, q < lp.[no] /\ gp.[g] = ptr.[q] /\ gp.[S g] = ptr.[S q]) /\
    (forall q, q < lp.[no] -> ptr.[q] < ptr.[S q] -> exists g, g < ng /\ gp.[g] = ptr.[q] /\ gp.[S g] = ptr.[S q]) /\
    exact_quotient n Lp Li ng gp gs p s /\
    (sched_grouped (edge n Lp Li) no lp ptr nd -> lower_tri ng p s).
Proof.
  intros n Lp Li no lp ptr nd W SW SC.
  assert (H : wp (getFinalScheduleDAG n no lp ptr nd Lp Li) (fun r => let '(ng, gp, gs, (p, s)) := r in
    grouping n ng gp gs /\ (forall k, k < n -> gs.[k] = nd.[k]) /\
    (forall g, g < ng -> exists q, q < lp.[no] /\ gp.[g] = ptr.[q] /\ gp.[S g] = ptr.[S q]) /\
    (forall q, q < lp.[no] -> ptr.[q] < ptr.[S q] -> exists g, g < ng /\ gp.[g] = ptr.[q] /\ gp.[S g] = ptr.[S q]) /\
    exact_quotient n Lp Li ng gp gs p s /\
    (sched_grouped (edge n Lp Li) no lp ptr nd -> lower_tri ng p s))).
  { unfold getFinalScheduleDAG. wp1. apply (final_groups_wp n Lp Li); auto. intros gp gs FC HL HG. wp1.
    pose proof (final_grouping n no lp ptr nd SW SC gp gs FC HL HG) as GR. pose proof GR as (G1 & G2 & G3 & G4).
    apply buildGroupDAG_wp; auto; try lia. intros p s X. wp1. splits; auto.
    - intros g Hg. eapply final_group_part; eauto.
    - intros q Hq. eapply final_part_group; eauto.
    - intros SG g h He. eapply (final_forward n Lp Li no lp ptr nd); eauto.
      eapply group_dag_quotient; eauto; lia. }
  destruct (getFinalScheduleDAG n no lp ptr nd Lp Li) as [(((ng & gp) & gs) & (p & s))|]; [|contradiction].
  exists ng, gp, gs, p, s. split; auto.
Qed.
Print Assumptions C47_final_schedule_dag.

(** two levels; the second part of the first level is empty *)
Example C47_case : let Lp := [0;2;5;6;7] in let Li := [0;2;1;2;3;2;3] in
  wf_csc 4 Lp Li /\ valid_schedule 4 (edge 4 Lp Li) 2 [0;3;4] [0;1;1;2;4] [1;0;2;3] /\
  getFinalScheduleDAG 4 2 [0;3;4] [0;1;1;2;4] [1;0;2;3] Lp Li = Ok (3, [0;1;2;4], [1;0;2;3], ([0;2;4;5], [0;2;1;2;2])).
Proof.
  cbv zeta. splits; try (vm_compute; reflexivity); [now apply wf_cscb_ok|].
  eapply valid_scheduleb_ok; [apply edgeb_ok|vm_compute; reflexivity].
Qed.
