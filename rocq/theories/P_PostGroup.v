(** C112: computePostOrderAndGroup (src/hdagg/hdagg.cpp 71-213). *)
From Verif Require Import Base Lib Lib2 Spec Check CheckS SpecSolve SpecGroup M_PostOrder L_PostOrder M_PostGroup L_PostGroup.
From Coq Require Import ZifyBool ZifyNat.

(** no column holds an entry twice *)
Definition distinct_cols (n : nat) (Lp Li : list nat) : Prop :=
  forall u k k', u < n -> Lp.[u] <= k < Lp.[S u] -> Lp.[u] <= k' < Lp.[S u] -> Li.[k] = Li.[k'] -> k = k'.

(** the groups cannot be made longer along the order: the last node of a group and the node
    after it in the order are not joined by an edge that is the only one out of the
    former and the only one into the latter *)
Definition maximal_chains (n : nat) (E : nat -> nat -> Prop) (ng : nat) (gp po : list nat) : Prop :=
  forall g k, g < ng -> S k = gp.[S g] -> S k < n ->
    ~ (E po.[k] po.[S k] /\ (forall w, E po.[k] w -> w = po.[S k]) /\ (forall u, E u po.[S k] -> u = po.[k])).

(** On every DAG with the diagonal first, whatever the two stray reads return: the
    order is topological; the groups cut it into maximal chains; the group DAG has the diagonal
    first, no repeated entries, edges to later groups only, and is exactly the graph of the
    groups; the assertions of a debug build hold. *)
Theorem C112_order_and_groups :
  forall junk junk' n Lp Li, wf_csc n Lp Li -> diag_first n Lp Li -> acyclic (edge n Lp Li) -> distinct_cols n Lp Li ->
  exists ng gp po dp ds inv deg, computePostOrderAndGroup junk junk' n Lp Li = Ok (ng, gp, po, dp, ds, inv) /\
    is_perm n po /\ (forall i j, i < n -> j < n -> edge n Lp Li po.[i] po.[j] -> i < j) /\
    grouping n ng gp po /\ chain_groups (edge n Lp Li) ng gp po /\ maximal_chains n (edge n Lp Li) ng gp po /\
    (forall g x, g < ng -> (in_level gp po g x <-> x < n /\ inv.[x] = g)) /\
    length dp = S ng /\ dp.[ng] = length ds /\
    wf_csc ng dp ds /\ diag_first ng dp ds /\ distinct_cols ng dp ds /\ lower_tri ng dp ds /\
    (forall g h, edge ng dp ds g h <-> quotient (edge n Lp Li) ng gp po g h) /\
    po_indegree n Lp Li = Ok deg /\ pg_asserts Lp Li deg po gp inv dp ds ng = Ok tt.
Proof.
  intros junk junk' n Lp Li W DF AC ND.
  enough (HW : wp (computePostOrderAndGroup junk junk' n Lp Li) (fun '(ng, gp, po, dp, ds, inv) => exists deg,
    is_perm n po /\ (forall i j, i < n -> j < n -> edge n Lp Li po.[i] po.[j] -> i < j) /\
    grouping n ng gp po /\ chain_groups (edge n Lp Li) ng gp po /\ maximal_chains n (edge n Lp Li) ng gp po /\
    (forall g x, g < ng -> (in_level gp po g x <-> x < n /\ inv.[x] = g)) /\
    length dp = S ng /\ dp.[ng] = length ds /\
    wf_csc ng dp ds /\ diag_first ng dp ds /\ distinct_cols ng dp ds /\ lower_tri ng dp ds /\
    (forall g h, edge ng dp ds g h <-> quotient (edge n Lp Li) ng gp po g h) /\
    po_indegree n Lp Li = Ok deg /\ pg_asserts Lp Li deg po gp inv dp ds ng = Ok tt)).
  { apply wp_ok in HW. destruct HW as ([[[[[ng gp] po] dp] ds] inv] & HE & deg & H). exists ng, gp, po, dp, ds, inv, deg. split; auto. }
  unfold computePostOrderAndGroup, computePostOrderAndGroup_.
  pose proof (po_indegree_wp2 n Lp Li W DF ND (fun deg => length deg = n /\
     (forall v, v < n -> (1 <= deg.[v] <-> exists u, edge n Lp Li u v)) /\
     (forall v, v < n -> (2 <= deg.[v] <-> exists u u', u <> u' /\ edge n Lp Li u v /\ edge n Lp Li u' v))) ltac:(intros; split; [assumption|split; assumption])) as HD.
  apply wp_ok in HD. destruct HD as (deg & ED & DL & D1 & D2). rewrite ED. wp1. wp1.
  pose proof (computePostOrder_wp n Lp Li W DF AC junk) as HP. apply wp_ok in HP. destruct HP as (po & EP & PP & PT).
  unfold computePostOrder in EP. rewrite EP. wp1. wp1. wp1.
  apply pg_groups_wp; auto. intros gp inv ng GO. cbn [bind]. wp1.
  eapply pg_dag_wp; eauto. intros dp ds HD1 HD2 HD3 HD4. wp1. exists deg.
  destruct (group_dag_ok n Lp Li W DF ND deg po DL D1 D2 PP PT gp inv ng GO dp ds HD1 HD2 HD3 HD4) as (GW & GD & GN & GE).
  assert (GGC : grouping n ng gp po /\ chain_groups (edge n Lp Li) ng gp po) by (eapply groups_grouping; eauto). destruct GGC as [GG GC].
  assert (GA : wp (pg_asserts Lp Li deg po gp inv dp ds ng) (fun _ => True)) by (eapply pg_asserts_wp; eauto).
  apply wp_ok in GA. destruct GA as ([] & GA & _).
  split; auto. split; auto. split; auto. split; auto. split.
  { intros g k Hg Hk Hkn HJ. destruct GO as (_ & _ & _ & _ & _ & _ & _ & G8). apply (G8 g Hg). rewrite <- Hk.
    replace (S k - 1) with k by lia. split; auto. }
  split; [intros g x Hg; eapply in_group; eauto|].
  repeat (split; [solve [auto]|]). split; [|auto].
  intros g h He. apply GE in He. revert He. eapply (quotient_lt n Lp Li); eauto.
Qed.
Print Assumptions C112_order_and_groups.

(** the read of the second entry of a column that has none can be behind the end of the
    vector, on a lower triangular matrix with its diagonal *)
Theorem C112_reads_behind_vector :
  exists n Lp Li, wf_csc n Lp Li /\ length Li = Lp.[n] /\ diag_first n Lp Li /\ lower_tri n Lp Li /\ sorted_cols n Lp Li /\
    forall junk, computePostOrderAndGroup_checked junk n Lp Li = Err OOB.
Proof.
  exists 4, [0;2;4;5;6], [0;3;1;2;2;3]. split; [now apply wf_cscb_ok|]. split; [reflexivity|]. split; [now apply diag_firstb_ok|].
  split; [now apply lower_trib_ok|]. split; [now apply sorted_colsb_ok|]. intros junk. vm_compute. reflexivity.
Qed.
Print Assumptions C112_reads_behind_vector.

Example C112_case :
  let Lp := [0;2;4;6;8;10;11] in let Li := [0;1;1;2;2;4;3;4;4;5;5] in
  wf_csc 6 Lp Li /\ diag_first 6 Lp Li /\ lower_tri 6 Lp Li /\ distinct_cols 6 Lp Li /\
  computePostOrderAndGroup 7 7 6 Lp Li = Ok (3, [0;3;4;6], [0;1;2;3;4;5], [0;2;4;5], [0;2;1;2;2], [0;0;0;1;2;2]).
Proof.
  cbv zeta. split; [now apply wf_cscb_ok|]. split; [now apply diag_firstb_ok|]. split; [now apply lower_trib_ok|].
  split; [|vm_compute; reflexivity].
  assert (S : sorted_cols 6 [0;2;4;6;8;10;11] [0;1;1;2;2;4;3;4;4;5;5]) by now apply sorted_colsb_ok.
  intros u k k' Hu Hk Hk' He. destruct (Nat.lt_trichotomy k k') as [H|[H|H]]; auto.
  - pose proof (S u k k' Hu ltac:(lia) H ltac:(lia)). lia.
  - pose proof (S u k' k Hu ltac:(lia) H ltac:(lia)). lia.
Qed.
