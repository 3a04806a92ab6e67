(** Properties of the run groupings and of the solver built on them (C39, C71, C72). *)
From Coq Require Import ZifyBool ZifyNat.
From Verif Require Import Base Lib Lib2 Lib3 Spec SpecSolve SpecGroup SpecRuns Check CheckS M_LevelSet M_SpTRSV M_Runs
  L_SpTRSV L_SpTRSV2 P_LevelSet P_SpTRSV P_Pipeline L_Group L_Runs L_Runs2.

(** * C39 *)

Theorem C39_csc_runs : forall n Lp Li gp0 gs0 inv0, wf_csc n Lp Li -> n < length gp0 -> n <= length gs0 -> n <= length inv0 ->
  exists ng gp gs inv, inspection_spicocsc_v1 n Lp Li gp0 gs0 inv0 = Ok (ng, (gp, gs, inv)) /\
    length gp = length gp0 /\ length gs = length gs0 /\ length inv = length inv0 /\ ng <= n /\ runs n (next_in_column Lp Li) ng gp gs inv.
Proof.
  intros n Lp Li gp0 gs0 inv0 W L1 L2 L3. pose proof (inspection_spicocsc_v1_wp n Lp Li gp0 gs0 inv0 W L1 L2 L3) as G.
  apply wp_ok in G. destruct G as ([ng [[gp gs] inv]] & E & H). exists ng, gp, gs, inv. auto.
Qed.
Print Assumptions C39_csc_runs.

Theorem C39_csr_runs : forall n Lp Li gp0 gs0 inv0, wf_csc n Lp Li -> n < length gp0 -> n <= length gs0 -> n <= length inv0 ->
  exists ng gp gs inv, inspection_sptrsvcsr_v1 n Lp Li gp0 gs0 inv0 = Ok (ng, (gp, gs, inv)) /\
    length gp = length gp0 /\ length gs = length gs0 /\ length inv = length inv0 /\ ng <= n /\ runs n (prev_in_row Lp Li) ng gp gs inv.
Proof.
  intros n Lp Li gp0 gs0 inv0 W L1 L2 L3. pose proof (inspection_sptrsvcsr_v1_wp n Lp Li gp0 gs0 inv0 W L1 L2 L3) as G.
  apply wp_ok in G. destruct G as ([ng [[gp gs] inv]] & E & H). exists ng, gp, gs, inv. auto.
Qed.
Print Assumptions C39_csr_runs.

Theorem C39_blocks : forall n gp0 gs0 inv0 blk, 0 < blk -> n < length gp0 -> n <= length gs0 -> n <= length inv0 ->
  exists ng gp gs inv, NaiveGrouping n gp0 gs0 inv0 blk = Ok (ng, (gp, gs, inv)) /\
    length gp = length gp0 /\ length gs = length gs0 /\ length inv = length inv0 /\ ng <= n /\ runs n (same_block blk) ng gp gs inv.
Proof.
  intros n gp0 gs0 inv0 blk HB L1 L2 L3. pose proof (NaiveGrouping_wp n gp0 gs0 inv0 blk HB L1 L2 L3) as G.
  apply wp_ok in G. destruct G as ([ng [[gp gs] inv]] & E & H). exists ng, gp, gs, inv. auto.
Qed.
Print Assumptions C39_blocks.

Theorem C39_block_zero_divides : forall n gp0 gs0 inv0, 0 < n -> NaiveGrouping n gp0 gs0 inv0 0 = Err DivZero.
Proof. intros n gp0 gs0 inv0 Hn. unfold NaiveGrouping, for_. destruct n; [lia|]. reflexivity. Qed.
Print Assumptions C39_block_zero_divides.

Lemma runs_members n P ng gp gs inv : runs n P ng gp gs inv -> forall g v, g < ng -> (in_level gp gs g v <-> gp.[g] <= v < gp.[S g]).
Proof.
  intros (A1 & A2 & A3 & A4 & A5 & A6) g v Hg.
  assert (gp.[S g] <= gp.[ng]) by (apply (mono_le (aget gp) ng); [intros i Hi; specialize (A2 i Hi)|..]; lia). split.
  - intros (k & Hk & <-). now rewrite A4 by lia.
  - intros Hv. exists v. split; auto. apply A4. lia.
Qed.

(** what runs mean for the other properties: a partition in which every node knows its group *)
Theorem C39_runs_partition : forall n P ng gp gs inv, runs n P ng gp gs inv ->
  group_partition n ng gp gs /\ (forall g v, g < ng -> in_level gp gs g v -> inv.[v] = g) /\
  (forall E : nat -> nat -> Prop, (forall u v, E u v -> u < v) -> group_ordered E ng gp gs /\ forall g h, quotient E ng gp gs g h -> g < h).
Proof.
  intros n P ng gp gs inv R. pose proof (runs_members _ _ _ _ _ _ R) as M. destruct R as (A1 & A2 & A3 & A4 & A5 & A6).
  assert (HB : forall g, g < ng -> gp.[S g] <= n).
  { intros g Hg. rewrite <- A3. apply (mono_le (aget gp) ng); [intros i Hi; specialize (A2 i Hi)|..]; lia. }
  splits.
  - unfold group_partition, level_partition. splits; auto.
    + intros l Hl. specialize (A2 l Hl). lia.
    + intros i Hi. now rewrite A4.
    + intros i j Hi Hj. now rewrite !A4.
  - intros g v Hg Hv. apply M in Hv; auto.
  - intros E HE. split.
    + intros g k k' Hg Hk Hk' He. specialize (HB g Hg). rewrite !A4 in He by lia. auto.
    + intros g h (Hg & Hh & Hne & u & v & Hu & Hv & He). apply M in Hu, Hv; auto. apply HE in He.
      destruct (Nat.lt_total g h) as [|[|H]]; auto; [lia|]. exfalso.
      assert (gp.[S h] <= gp.[g]) by (apply (mono_le (aget gp) ng); [intros i Hi; specialize (A2 i Hi)|..]; lia). lia.
Qed.
Print Assumptions C39_runs_partition.

(** members of a run depend on their predecessor; with sorted rows runs are as long as possible *)
Theorem C39_csr_chains : forall n Lp Li ng gp gs inv, runs n (prev_in_row Lp Li) ng gp gs inv ->
  (forall v, S v < n -> inv.[v] = inv.[S v] -> row_dep n Lp Li v (S v)) /\
  ((forall i k k', i < n -> Lp.[i] <= k -> k < k' -> k' < Lp.[S i] -> Li.[k] < Li.[k']) -> rows_lower n Lp Li ->
   forall v, S v < n -> (inv.[v] = inv.[S v] <-> row_dep n Lp Li v (S v))).
Proof.
  intros n Lp Li ng gp gs inv (_ & _ & _ & _ & _ & R).
  assert (G : forall v, S v < n -> inv.[v] = inv.[S v] -> row_dep n Lp Li v (S v)).
  { intros v Hv E. apply R in E; auto. destruct E as (H1 & H2). split; auto. exists (Lp.[S (S v)] - 2). split; [lia|auto]. }
  split; auto. intros HS HL v Hv. split; auto. intros He. apply R; auto. pose proof He as (_ & j & Hj & Ej). split; [lia|].
  destruct (Nat.eq_dec j (Lp.[S (S v)] - 2)) as [<-|Hn]; auto.
  assert (Li.[j] < Li.[Lp.[S (S v)] - 2]) by (apply (HS (S v)); lia).
  assert (Li.[Lp.[S (S v)] - 2] < S v); [|lia]. apply HL. split; auto. exists (Lp.[S (S v)] - 2). split; [lia|reflexivity].
Qed.
Print Assumptions C39_csr_chains.

Theorem C39_csc_chains : forall n Lp Li ng gp gs inv, wf_csc n Lp Li -> runs n (next_in_column Lp Li) ng gp gs inv ->
  (forall v, S v < n -> inv.[v] = inv.[S v] -> edge n Lp Li v (S v)) /\
  (sorted_cols n Lp Li -> diag_first n Lp Li -> lower_tri n Lp Li -> forall v, S v < n -> (inv.[v] = inv.[S v] <-> edge n Lp Li v (S v))).
Proof.
  intros n Lp Li ng gp gs inv W (_ & _ & _ & _ & _ & R).
  assert (G : forall v, S v < n -> inv.[v] = inv.[S v] -> edge n Lp Li v (S v)).
  { intros v Hv E. apply R in E; auto. destruct E as (H1 & H2). split; [lia|]. split; [|lia]. exists (S Lp.[v]). split; [lia|auto]. }
  split; auto. intros HS HD HT v Hv. split; auto. intros He. apply R; auto. destruct He as (_ & (j & Hj & Ej) & _).
  destruct (HD v ltac:(lia)) as (D1 & D2 & D3). destruct (Nat.eq_dec j Lp.[v]) as [->|]; [lia|]. split; [lia|].
  destruct (Nat.eq_dec j (S Lp.[v])) as [<-|Hn]; auto.
  assert (Li.[S Lp.[v]] < Li.[j]) by (apply (HS v); lia).
  assert (v < Li.[S Lp.[v]]); [|lia]. apply HT. split; [lia|]. split; [|apply not_eq_sym, D3; lia]. exists (S Lp.[v]). split; [lia|auto].
Qed.
Print Assumptions C39_csc_chains.

(** rows 0; 1 = f(0); 2; 3 = f(0,2); 4 = f(3): runs {0,1} {2,3,4} *)
Definition exRp := [0;1;3;4;7;9].
Definition exRi := [0; 0;1; 2; 0;2;3; 3;4].

Example C39_case : wf_csc 5 exRp exRi /\
  inspection_sptrsvcsr_v1 5 exRp exRi (repeat 9 6) (repeat 9 5) (repeat 9 5) = Ok (2, ([0;2;5;9;9;9], [0;1;2;3;4], [0;0;1;1;1])) /\
  inspection_spicocsc_v1 5 [0;3;4;6;8;9] [0;1;3; 1; 2;3; 3;4; 4] (repeat 9 6) (repeat 9 5) (repeat 9 5) = Ok (2, ([0;2;5;9;9;9], [0;1;2;3;4], [0;0;1;1;1])) /\
  NaiveGrouping 5 (repeat 9 6) (repeat 9 5) (repeat 9 5) 2 = Ok (3, ([0;2;4;5;9;9], [0;1;2;3;4], [0;0;1;1;2])).
Proof. splits; [now apply wf_cscb_ok|vm_compute; reflexivity..]. Qed.

(** * C71: the group graph from the rows *)

Theorem C71_group_graph : forall n ng gp gs inv Lp Li, wf_csc n Lp Li -> group_partition n ng gp gs -> ng < length gp -> n <= length gs -> n <= length inv -> ng <= n ->
  (forall g v, g < ng -> in_level gp gs g v -> inv.[v] = g) ->
  exists D gv gedg, fs_csr_inspector_dep ng gp gs inv Lp Li (repeat [] ng) = Ok D /\ pack_group_dag n ng D = Ok (gv, gedg) /\
    wf_csc ng gv gedg /\ diag_first ng gv gedg /\ (forall g h, edge ng gv gedg g h <-> quotient (row_dep n Lp Li) ng gp gs g h) /\
    (forall g k k', g < ng -> S gv.[g] <= k -> k < k' -> k' < gv.[S g] -> gedg.[k] < gedg.[k']).
Proof.
  intros n ng gp gs inv Lp Li W GP L1 L2 L3 Hn HI.
  pose proof (fs_csr_inspector_dep_wp n ng gp gs inv Lp Li W GP L1 L2 L3 HI) as G. apply wp_ok in G. destruct G as (D & ED & LD & HD).
  pose proof (pack_group_dag_wp n ng D Hn LD) as G. apply wp_ok in G. destruct G as ([gv gedg] & EP & HP).
  exists D, gv, gedg. split; auto. split; auto. apply (packed_graph n ng D gv gedg (quotient (row_dep n Lp Li) ng gp gs)); auto.
  intros g h (H1 & H2 & H3 & _). auto.
Qed.
Print Assumptions C71_group_graph.

Example C71_case : exists D, fs_csr_inspector_dep 2 [0;2;5] [0;1;2;3;4] [0;0;1;1;1] exRp exRi [[];[]] = Ok D /\
  pack_group_dag 5 2 D = Ok ([0;2;3;0;0;0], [0;1;1;0;0;0]).
Proof. eexists. split; vm_compute; reflexivity. Qed.

(** * C72: the solver *)

Theorem C72_grouping_end_to_end : forall (V : Type) (DV : Dflt V) fms quo n Lp Li (Lx b : list V),
  lower_rows n Lp Li Lx -> n <= length b ->
  exists P, grouping_prog n Lp Li = Ok P /\ same_as_serial fms quo n Lp Li Lx b P /\ race_free fms quo Lp Li Lx b P.
Proof.
  intros V DV fms quo n Lp Li Lx b LR Hb. pose proof LR as ((W & HNE) & RL & HX).
  destruct (C39_csr_runs n Lp Li (repeat 0 (n + 1)) (repeat 0 n) (repeat 0 n) W) as (ng & gp & gs & inv & E1 & L1 & L2 & L3 & Hng & R); try (rewrite repeat_length; lia).
  rewrite !repeat_length in *. destruct (C39_runs_partition _ _ _ _ _ _ R) as (GP & HI & HO). destruct (HO (row_dep n Lp Li) RL) as (GO & GQ).
  destruct (C71_group_graph n ng gp gs inv Lp Li W GP) as (D & gv & gedg & E2 & E3 & WG & DG & EG & _); auto; try lia.
  destruct (C04_queue_variant ng gv gedg (repeat 0 (n + 1)) (repeat 0 n) WG DG) as (k & ptr & lset & E4 & LP & LO & _ & _ & K1 & K2); rewrite ?repeat_length; try lia.
  { apply tri_acyclic. intros u v He. apply EG in He. auto. }
  { rewrite aget_repeat by lia. reflexivity. }
  destruct (C31_group_levelset_solve_serial V DV fms quo n ng Lp Li Lx b k ptr lset gp gs) as (P & E5 & S1 & S2); auto; try lia.
  { intros g h l m He Hl Hm Hg Hh. apply (LO g h l m); auto. now apply EG. }
  exists P. split; auto. unfold grouping_prog. rewrite E1. cbn [bind]. rewrite E2. cbn [bind]. rewrite E3. cbn [bind]. rewrite E4. exact E5.
Qed.
Print Assumptions C72_grouping_end_to_end.

(** the pure chain 0 -> 1 -> 2, on which the wavefront inspector fails, is one group here *)
Example C72_case : lower_rows 5 exRp exRi exRi /\ (exists P, grouping_prog 5 exRp exRi = Ok P) /\
  lower_rows 3 [0;1;3;5] [0; 0;1; 1;2] [0; 0;1; 1;2] /\ exists P, grouping_prog 3 [0;1;3;5] [0; 0;1; 1;2] = Ok P.
Proof.
  splits; try (eexists; vm_compute; reflexivity);
    (split; [apply wf_rowsb_ok; vm_compute; reflexivity|split; [apply rows_lowerb_ok; vm_compute; reflexivity|vm_compute; lia]]).
Qed.
