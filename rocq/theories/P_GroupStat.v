(** Property C154: what averWsize and consecutiveRatio of the grouped classes compute.

    The schedule (lp, pp, np) is a schedule of the [ng] groups; group g holds the rows gs[gp[g]] .. gs[gp[g+1]-1]. *)
From Coq Require Import ZifyBool ZifyNat Permutation.
From Verif Require Import Base Lib Lib2 Spec M_GroupStat P_Runtime P_Runtime2.

(** * averWsize *)

(** It is the number of entries of the matrix over the number of parts, whatever the grouping and the schedule. *)
Theorem C154_average_size : forall n ng nl Rp lp pp np gp gs,
  sched_wf ng nl lp pp np -> sched_complete ng np ->
  level_partition n ng gp gs -> ng < length gp -> n <= length gs ->
  n < length Rp -> Rp.[0] = 0 -> (forall i, i < n -> Rp.[i] <= Rp.[S i]) ->
  averWsize_group nl Rp lp pp np gp gs = Ok (Rp.[n], lp.[nl]).
Proof.
  intros n ng nl Rp lp pp np gp gs SW SC GP LG LS HR R0 RM. pose proof SW as (LL & L0 & _ & LP & P0 & PM & PN & LN).
  destruct GP as (G0 & GM & GN & GB & GI).
  set (h := fun l => Rp.[S gs.[l]] - Rp.[gs.[l]]). set (f := fun k => sum_r gp.[np.[k]] gp.[S np.[k]] h).
  assert (GL : forall g g', g <= g' -> g' <= ng -> gp.[g] <= gp.[g']) by (intros; apply (mono_le (aget gp) ng); auto).
  assert (E : sum_r 0 ng f = Rp.[n]).
  { unfold f. rewrite (sum_complete ng np (fun g => sum_r gp.[g] gp.[S g] h)) by auto.
    assert (K0 : forall m, m <= ng -> sum_r 0 m (fun g => sum_r gp.[g] gp.[S g] h) = sum_r 0 gp.[m] h).
    { induction m as [|m IH]; intros Hm; [rewrite G0; reflexivity|]. rewrite sum_r_S by lia. rewrite IH by lia.
      pose proof (GL m (S m) ltac:(lia) ltac:(lia)). symmetry. apply sum_r_split; lia. }
    rewrite K0, GN by lia. unfold h. rewrite (sum_complete n gs (fun v => Rp.[S v] - Rp.[v])) by (auto; split; auto).
    assert (K : forall m, m <= n -> sum_r 0 m (fun v => Rp.[S v] - Rp.[v]) = Rp.[m] /\ Rp.[0] <= Rp.[m]).
    { induction m as [|m IH]; intros Hm; [rewrite R0; split; auto|]. rewrite sum_r_S by lia. destruct (IH ltac:(lia)) as (-> & ?). specialize (RM m ltac:(lia)). lia. }
    apply K. lia. }
  match goal with |- ?x = Ok ?y => assert (G : wp x (fun r => r = y)) end.
  { unfold averWsize_group. apply wp_bind. apply wp_rd; [lia|]. apply wp_bind. apply (wp_for (fun w c => c = sum_r 0 pp.[w] f)); [lia|now rewrite P0| |].
    - intros w c Hw ->. apply wp_bind. apply wp_rd; [lia|]. apply wp_bind. apply wp_rd; [lia|]. pose proof (pp_le ng nl lp pp np SW w (S w) ltac:(lia) ltac:(lia)).
      pose proof (pp_le_n ng nl lp pp np SW (S w) ltac:(lia)). apply (wp_for (fun i c => c = sum_r 0 i f)); [lia|auto| |auto].
      intros i c Hi ->. destruct SC as (C1 & _). specialize (C1 i ltac:(lia)). apply wp_bind. apply wp_rd; [lia|]. apply wp_bind. apply wp_rd; [lia|]. apply wp_bind. apply wp_rd; [lia|].
      pose proof (GL np.[i] (S np.[i]) ltac:(lia) ltac:(lia)). pose proof (GL (S np.[i]) ng ltac:(lia) ltac:(lia)).
      apply (wp_for (fun l c => c = sum_r 0 i f + sum_r gp.[np.[i]] l h)); [lia|rewrite (sum_r_nil gp.[np.[i]]) by lia; lia| |].
      + intros l c Hl ->. specialize (GB l ltac:(lia)). apply wp_bind. apply wp_rd; [lia|]. apply wp_bind. apply wp_rd; [lia|]. apply wp_bind. apply wp_rd; [lia|].
        apply wp_ret. rewrite sum_r_S by lia. unfold h at 3. lia.
      + intros c ->. now rewrite sum_r_S by lia.
    - intros c ->. apply wp_ret. now rewrite PN, E. }
  apply wp_ok in G. destruct G as (r & -> & ->). reflexivity.
Qed.
Print Assumptions C154_average_size.

(** * consecutiveRatio *)

(** adjacent positions of part w that do not hold consecutive groups *)
Definition breaks (pp np : list nat) (w : nat) : nat := length (filter (fun k => negb (np.[S k] =? S np.[k])) (seq pp.[w] (pp.[S w] - 1 - pp.[w]))).
(** size of the group whose number is the last position of part w *)
Definition last_size (pp gp : list nat) (w : nat) : nat := gp.[pp.[S w]] - gp.[pp.[S w] - 1].

(** Without empty parts: numerator n minus the breaks; denominator n minus the parts and minus the sizes found at the last positions. *)
Theorem C154_ratio : forall n ng nl lp pp np gp gs, sched_wf ng nl lp pp np -> level_partition n ng gp gs -> ng < length gp ->
  (forall w, w < lp.[nl] -> pp.[w] < pp.[S w]) ->
  consecutiveRatio_group nl lp pp np gp =
    Ok ((Z.of_nat n - Z.of_nat (sum_r 0 lp.[nl] (breaks pp np)))%Z,
        (Z.of_nat n - Z.of_nat (sum_r 0 lp.[nl] (last_size pp gp)) - Z.of_nat lp.[nl])%Z).
Proof.
  intros n ng nl lp pp np gp gs SW (G0 & GM & GN & _) LG NE. pose proof SW as (LL & L0 & _ & LP & P0 & PM & PN & LN).
  assert (GL : forall g g', g <= g' -> g' <= ng -> gp.[g] <= gp.[g']) by (intros; apply (mono_le (aget gp) ng); auto).
  match goal with |- ?x = Ok ?y => assert (G : wp x (fun r => r = y)) end.
  { unfold consecutiveRatio_group. apply wp_bind. apply wp_rd; [lia|].
    apply (wp_for (fun w r => r = ((Z.of_nat gp.[pp.[w]] - Z.of_nat (sum_r 0 w (breaks pp np)))%Z,
             (Z.of_nat gp.[pp.[w]] - Z.of_nat (sum_r 0 w (last_size pp gp)) - Z.of_nat w)%Z))); [lia|rewrite P0, G0; reflexivity| |].
    - intros w r Hw ->. apply wp_bind. apply wp_rd; [lia|]. apply wp_bind. apply wp_rd; [lia|]. specialize (NE w ltac:(lia)).
      pose proof (pp_le_n ng nl lp pp np SW (S w) ltac:(lia)). apply wp_bind.
      set (B := fun i => Z.of_nat (length (filter (fun k => negb (np.[S k] =? S np.[k])) (seq pp.[w] (i - pp.[w]))))).
      apply (wp_for (fun i r => r = ((Z.of_nat gp.[i] - Z.of_nat (sum_r 0 w (breaks pp np)) - B i)%Z,
             (Z.of_nat gp.[i] - Z.of_nat (sum_r 0 w (last_size pp gp)) - Z.of_nat w)%Z))); [lia| | |].
      + unfold B. rewrite Nat.sub_diag. cbn [seq filter length]. f_equal; lia.
      + intros i r Hi ->. apply wp_bind. apply wp_rd; [lia|]. apply wp_bind. apply wp_rd; [lia|]. apply wp_bind. apply wp_rd; [lia|]. apply wp_bind. apply wp_rd; [lia|].
        cbv zeta. assert (EB : B (S i) = (B i + (if (np.[S i] =? S np.[i])%nat then 0 else 1))%Z).
        { unfold B. rewrite seq_snoc by lia. rewrite filter_app, app_length. cbn [filter]. destruct (_ =? _); cbn [negb length]; lia. }
        rewrite EB. destruct (_ =? _); apply wp_ret; f_equal; lia.
      + intros r ->. apply wp_bind. apply wp_rd; [lia|]. apply wp_bind. destruct (Nat.eqb_spec pp.[S w] 0); [lia|]. apply wp_rd; [lia|]. cbv zeta. apply wp_ret.
        rewrite !sum_r_S by lia. assert (EB : B (pp.[S w] - 1) = Z.of_nat (breaks pp np w)) by reflexivity. rewrite EB.
        pose proof (GL (pp.[S w] - 1) pp.[S w] ltac:(lia) ltac:(lia)). unfold last_size at 3. f_equal; lia.
    - intros r ->. now rewrite PN, GN. }
  apply wp_ok in G. destruct G as (r & -> & ->). reflexivity.
Qed.
Print Assumptions C154_ratio.

(** With one group per part the "ratio" is n over minus the number of groups, for every grouping and every such schedule. *)
Theorem C154_negative_ratio : forall n ng nl lp pp np gp gs, sched_wf ng nl lp pp np -> level_partition n ng gp gs -> ng < length gp ->
  (forall w, w < lp.[nl] -> pp.[S w] = S pp.[w]) ->
  consecutiveRatio_group nl lp pp np gp = Ok (Z.of_nat n, (- Z.of_nat ng)%Z).
Proof.
  intros n ng nl lp pp np gp gs SW GP LG ONE. rewrite (C154_ratio n ng nl lp pp np gp gs SW GP LG) by (intros w Hw; rewrite ONE; lia).
  pose proof SW as (LL & L0 & _ & LP & P0 & PM & PN & LN). destruct GP as (G0 & GM & GN & _).
  assert (K : forall w, w <= lp.[nl] -> pp.[w] = w) by (induction w as [|w IH]; intros Hw; [exact P0|]; rewrite ONE, IH by lia; lia).
  rewrite K in PN by lia. rewrite sum_r_all_zero.
  - assert (E : forall w, w <= lp.[nl] -> sum_r 0 w (last_size pp gp) = gp.[w]).
    { induction w as [|w IH]; intros Hw; [now rewrite G0|]. rewrite sum_r_S, IH by lia. unfold last_size. rewrite K by lia. replace (S w - 1) with w by lia.
      specialize (GM w ltac:(lia)). lia. }
    rewrite E, PN, GN by lia. f_equal. f_equal; lia.
  - intros w Hw. unfold breaks. rewrite ONE by lia. replace (S pp.[w] - 1 - pp.[w]) with 0 by lia. reflexivity.
Qed.
Print Assumptions C154_negative_ratio.

(** An empty first part makes it read groupPtr[-1]. *)
Theorem C154_empty_part_out_of_bounds : forall ng nl lp pp np gp, sched_wf ng nl lp pp np -> 0 < lp.[nl] -> pp.[1] = 0 ->
  consecutiveRatio_group nl lp pp np gp = Err OOB.
Proof.
  intros ng nl lp pp np gp SW NP E1. pose proof SW as (LL & L0 & _ & LP & P0 & PM & PN & LN). unfold consecutiveRatio_group.
  rewrite rd_ok by lia. cbn [bind]. unfold for_. rewrite Nat.sub_0_r. destruct lp.[nl] as [|m]; [lia|]. cbn [for_n].
  rewrite !rd_ok by lia. cbn [bind]. rewrite P0, E1. cbn [Nat.sub for_n bind]. unfold rd. destruct (nth_error gp 0); reflexivity.
Qed.
Print Assumptions C154_empty_part_out_of_bounds.

(** five rows in three groups {0,2}, {1}, {3,4}; one level of two parts *)
Example C154_nonvacuous : sched_wf 3 1 [0;2] [0;2;3] [0;1;2] /\ sched_complete 3 [0;1;2] /\ level_partition 5 3 [0;2;3;5] [0;2;1;3;4] /\
  averWsize_group 1 [0;1;2;5;7;8] [0;2] [0;2;3] [0;1;2] [0;2;3;5] [0;2;1;3;4] = Ok (8, 2) /\
  consecutiveRatio_group 1 [0;2] [0;2;3] [0;1;2] [0;2;3;5] = Ok (5%Z, 0%Z) /\
  sched_wf 3 1 [0;3] [0;1;2;3] [0;1;2] /\ consecutiveRatio_group 1 [0;3] [0;1;2;3] [0;1;2] [0;2;3;5] = Ok (5%Z, (-3)%Z) /\
  sched_wf 3 1 [0;2] [0;0;3] [0;1;2] /\ consecutiveRatio_group 1 [0;2] [0;0;3] [0;1;2] [0;2;3;5] = Err OOB.
Proof.
  splits; try (vm_compute; reflexivity).
  - unfold sched_wf. splits; cbn; try lia; intros l Hl; do 3 (destruct l as [|l]; [cbn; lia|]); lia.
  - split; [intros k Hk; do 3 (destruct k; [cbn; lia|]); lia|]. intros k k' Hk Hk'. do 3 (destruct k as [|k]; [do 3 (destruct k' as [|k']; [cbn; lia|]); lia|]). lia.
  - unfold level_partition. splits; try (cbn; lia).
    + intros l Hl; do 3 (destruct l as [|l]; [cbn; lia|]); lia.
    + intros l Hl; do 5 (destruct l as [|l]; [cbn; lia|]); lia.
    + intros k k' Hk Hk'. do 5 (destruct k as [|k]; [do 5 (destruct k' as [|k']; [cbn; lia|]); lia|]). lia.
  - unfold sched_wf. splits; cbn; try lia; intros l Hl; do 4 (destruct l as [|l]; [cbn; lia|]); lia.
  - unfold sched_wf. splits; cbn; try lia; intros l Hl; do 3 (destruct l as [|l]; [cbn; lia|]); lia.
Qed.
