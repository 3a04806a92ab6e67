(** C06-C08: parallel connected components. *)
From Verif Require Import Base Lib Spec Check M_CC L_CC.

(** The hypotheses shared by the theorems: a well-formed graph, a list of distinct
    nodes that is exactly the window of levels [lb, ub), and arrays that are long
    enough. *)
Definition cc_input (n : nat) (lC lR : list nat) (lb ub : nat) (node2Level nodes mem : list nat) : Prop :=
  wf_csc n lC lR /\ NoDup nodes /\ n <= length node2Level /\ n <= length mem /\
  (forall v, In v nodes -> v < n) /\
  (forall v, v < n -> (In v nodes <-> lb <= node2Level.[v] < ub)).

Lemma reach_inv n lC lR lb ub n2l nodes mem s : cc_input n lC lR lb ub n2l nodes mem ->
  cc_steps lC lR lb ub n2l nodes (cc_start nodes mem) s -> Inv n lC lR nodes mem s.
Proof.
  intros (W & ND & HL & HM & NB & HW) Hs.
  exact (steps_inv n lC lR lb ub n2l nodes W ND NB HL HW mem _ s (start_inv n lC lR nodes mem HM) Hs).
Qed.

Lemma exec_labels n lC lR lb ub n2l nodes mem mem' : cc_input n lC lR lb ub n2l nodes mem ->
  cc_exec lC lR lb ub n2l nodes mem mem' -> cc_labels n lC lR nodes mem mem'.
Proof.
  intros HI Hs. pose proof (reach_inv _ _ _ _ _ _ _ _ _ HI Hs) as H.
  destruct HI as (W & ND & HL & HM & NB & HW).
  exact (fin_labels n lC lR lb ub n2l nodes NB HL HW mem mem' H).
Qed.

(** C06.  No interleaving makes an out-of-bounds access, and whatever the
    interleaving, on exit every listed node carries the least position of its
    component, two listed nodes carry the same label iff they are connected inside
    the window, and all other cells are untouched. *)
Theorem C06_components_any_interleaving :
  forall n lC lR lb ub node2Level nodes mem,
  cc_input n lC lR lb ub node2Level nodes mem ->
  let conn := connected (edge_within (edge n lC lR) nodes) in
  (forall s, cc_steps lC lR lb ub node2Level nodes (cc_start nodes mem) s ->
     ~ cc_bad lC lR lb ub node2Level nodes s) /\
  (forall mem', cc_exec lC lR lb ub node2Level nodes mem mem' ->
     length mem' = length mem /\
     (forall u v, In u nodes -> In v nodes -> (mem'.[u] = mem'.[v] <-> conn u v)) /\
     (forall u, In u nodes ->
        mem'.[u] < length nodes /\ conn u nodes.[mem'.[u]] /\
        (forall j, j < length nodes -> conn u nodes.[j] -> mem'.[u] <= j)) /\
     (forall v, ~ In v nodes -> mem'.[v] = mem.[v])).
Proof.
  intros n lC lR lb ub n2l nodes mem HI conn. pose proof HI as (W & ND & HL & HM & NB & HW). split.
  - intros s Hs. exact (inv_not_bad n lC lR lb ub n2l nodes W ND NB HL HW mem s (reach_inv _ _ _ _ _ _ _ _ _ HI Hs)).
  - intros mem' Hs. pose proof (exec_labels _ _ _ _ _ _ _ _ _ HI Hs) as HF.
    pose proof HF as (L & O & H). splits; auto.
    + intros u v Hu Hv. exact (cc_labels_same n lC lR lb ub n2l nodes NB HL HW mem mem' u v HF Hu Hv).
    + intros u Hu. apply In_aget in Hu. destruct Hu as [i [Hi <-]]. apply H. auto.
Qed.
Print Assumptions C06_components_any_interleaving.

Lemma cc_input_case : cc_input 6 [0;2;4;6;7;8;8] [0;3;1;4;2;3;3;4] 0 2 [0;0;0;1;1;2] [0;1;2;3;4] (repeat 9 6).
Proof.
  unfold cc_input. splits.
  - now apply wf_cscb_ok.
  - repeat constructor; simpl; lia.
  - simpl; lia.
  - simpl; lia.
  - intros v Hv. simpl in Hv. lia.
  - intros v Hv. destruct v as [|[|[|[|[|[|]]]]]]; unfold aget; simpl; try lia; intuition lia.
Qed.

(** the two hooks of nodes 0 and 2 compete for node 3's star; here is a complete
    execution with a lost update: iteration 2 writes 2 over the 0 written by
    iteration 0, and the routine needs another round to repair it *)
Example C06_case : exists m1 m2,
  hook_step [0;2;4;6;7;8;8] [0;3;1;4;2;3;3;4] 0 2 [0;0;0;1;1;2] [0;1;2;3;4] 0 (HStoreL 1 3 0)
    [0;1;2;3;4;9] true = Ok (HLoadU 2, m1, true) /\
  hook_step [0;2;4;6;7;8;8] [0;3;1;4;2;3;3;4] 0 2 [0;0;0;1;1;2] [0;1;2;3;4] 2 (HStoreL 5 3 2)
    m1 true = Ok (HLoadU 6, m2, true) /\ m2.[3] = 2.
Proof. do 2 eexists. repeat split. Qed.

(** C07.  There is no infinite execution, and an execution that has not finished
    can always take a step (so it finishes under every scheduler). *)
Theorem C07_components_terminate :
  forall n lC lR lb ub node2Level nodes mem,
  cc_input n lC lR lb ub node2Level nodes mem ->
  (~ exists run : nat -> cc_state, run 0 = cc_start nodes mem /\
       forall i, cc_step lC lR lb ub node2Level nodes (run i) (run (S i))) /\
  (forall s, cc_steps lC lR lb ub node2Level nodes (cc_start nodes mem) s ->
     (exists mem', s = (PFin, mem')) \/ exists s', cc_step lC lR lb ub node2Level nodes s s').
Proof.
  intros n lC lR lb ub n2l nodes mem HI. pose proof HI as (W & ND & HL & HM & NB & HW). split.
  - apply term_no_infinite. exact (term_start n lC lR lb ub n2l nodes W ND NB HL HW mem HM).
  - intros s Hs.
    exact (progress n lC lR lb ub n2l nodes W ND NB HL HW mem s (reach_inv _ _ _ _ _ _ _ _ _ HI Hs)).
Qed.
Print Assumptions C07_components_terminate.

Example C07_case : parallel_cc [0;2;4;6;7;8;8] [0;3;1;4;2;3;3;4] 0 2 [0;0;0;1;1;2] [0;1;2;3;4] (repeat 9 6)
  = Ok [0;1;0;0;1;9].
Proof. vm_compute. reflexivity. Qed.

(** C08.  The single-threaded execution always succeeds, and every complete
    execution of the parallel routine ends with exactly its labels; at least one
    complete execution exists. *)
Theorem C08_components_deterministic :
  forall n lC lR lb ub node2Level nodes mem,
  cc_input n lC lR lb ub node2Level nodes mem ->
  exists labels,
    parallel_cc lC lR lb ub node2Level nodes mem = Ok labels /\
    (exists mem', cc_exec lC lR lb ub node2Level nodes mem mem') /\
    (forall mem', cc_exec lC lR lb ub node2Level nodes mem mem' -> mem' = labels).
Proof.
  intros n lC lR lb ub n2l nodes mem HIn. pose proof HIn as (W & ND & HL & HM & NB & HW).
  pose proof (parallel_cc_wp n lC lR lb ub n2l nodes W ND NB HL HW mem HM) as H.
  apply wp_ok in H. destruct H as (labels & E & HB). exists labels. splits; auto.
  - assert (T : Terminates lC lR lb ub n2l nodes (cc_start nodes mem)) by exact (term_start n lC lR lb ub n2l nodes W ND NB HL HW mem HM).
    assert (G : forall s, Terminates lC lR lb ub n2l nodes s -> Inv n lC lR nodes mem s ->
              cc_steps lC lR lb ub n2l nodes (cc_start nodes mem) s ->
              exists mem', cc_exec lC lR lb ub n2l nodes mem mem').
    { intros s HT. induction HT as [s _ IH]. intros HI Hs.
      destruct (progress n lC lR lb ub n2l nodes W ND NB HL HW mem s HI) as [(m & ->)|(s' & Hs')].
      - exists m. exact Hs.
      - apply (IH s'); auto; [exact (step_inv n lC lR lb ub n2l nodes W ND NB HL HW mem s s' HI Hs')|eapply ccs_step; eauto]. }
    apply (G _ T); [now apply start_inv|constructor].
  - intros mem' Hs.
    exact (cc_labels_unique n lC lR lb ub n2l nodes NB HL HW mem _ _ (exec_labels _ _ _ _ _ _ _ _ _ HIn Hs) HB).
Qed.
Print Assumptions C08_components_deterministic.

Example C08_case : exists labels,
  parallel_cc [0;2;4;6;7;8;8] [0;3;1;4;2;3;3;4] 0 2 [0;0;0;1;1;2] [0;1;2;3;4] (repeat 9 6) = Ok labels
  /\ labels.[3] = labels.[0] /\ labels.[2] = labels.[0] /\ labels.[4] = 1 /\ labels.[5] = 9.
Proof. eexists. repeat split. Qed.
