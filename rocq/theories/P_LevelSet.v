(** C01-C04: level sets (wavefronts). *)
From Verif Require Import Base Lib Spec Check M_LevelSet L_LevelSet L_LevelSet2.

(** C01.  Whatever the graph, the call returns (no out-of-bounds access, no endless
    loop); and if the returned count is not negative, the slices partition the
    nodes, every dependence goes to a strictly later slice, and node_to_level
    names the slice of each node.  [levelPtr.[0] = 0] is needed because the code
    never writes that cell. *)
Theorem C01_levelset_partition_order :
  forall n Lp Li levelPtr levelSet node_to_level,
  wf_csc n Lp Li -> one_diag n Lp Li ->
  n <= length levelPtr -> n <= length levelSet -> n <= length node_to_level -> levelPtr.[0] = 0 ->
  exists k ptr lset n2l,
    build_levelSet_CSC n Lp Li levelPtr levelSet node_to_level = Ok (k, (ptr, lset, n2l)) /\
    ((0 <= k)%Z ->
       level_partition n (Z.to_nat k) ptr lset /\
       level_ordered (edge n Lp Li) (Z.to_nat k) ptr lset /\
       (forall l v, l < Z.to_nat k -> in_level ptr lset l v -> n2l.[v] = l)).
Proof.
  intros n Lp Li lp ls n2l W D HP HS HN H0.
  destruct (build_levelSet_total n Lp Li lp ls n2l W D HP HS HN H0)
    as (k & ptr & lset & n2l' & E & H).
  exists k, ptr, lset, n2l'. split; [exact E|]. intros Hk.
  destruct H as [(? & _)|(_ & HX & _)]; [lia|]. splits.
  - apply HX.
  - exact (levels_ordered _ _ _ _ _ _ _ W HX).
  - intros l v Hl Hv. now destruct (levels_in_level _ _ _ _ _ _ _ _ _ HX Hl Hv) as (_ & ? & _).
Qed.
Print Assumptions C01_levelset_partition_order.

Example C01_case :
  wf_csc 5 [0;3;5;7;9;10] [0;2;4;1;2;2;3;3;4;4] /\ one_diag 5 [0;3;5;7;9;10] [0;2;4;1;2;2;3;3;4;4].
Proof. split; [now apply wf_cscb_ok|now apply one_diag_of_first, diag_firstb_ok]. Qed.

(** C02.  A node is in slice [l] iff the longest dependence chain ending in it has
    [l] edges; all slices are inhabited; and any assignment of nodes to numbered
    steps that respects the dependences needs at least [k] steps. *)
Theorem C02_level_is_longest_chain :
  forall n Lp Li levelPtr levelSet node_to_level k ptr lset n2l,
  wf_csc n Lp Li -> one_diag n Lp Li ->
  n <= length levelPtr -> n <= length levelSet -> n <= length node_to_level -> levelPtr.[0] = 0 ->
  build_levelSet_CSC n Lp Li levelPtr levelSet node_to_level = Ok (k, (ptr, lset, n2l)) ->
  (0 <= k)%Z ->
  (forall l v, v < n ->
     (l < Z.to_nat k /\ in_level ptr lset l v <-> depth_is (edge n Lp Li) v l)) /\
  (forall l, l < Z.to_nat k -> exists v, v < n /\ in_level ptr lset l v) /\
  (forall step : nat -> nat, 0 < n -> (forall u v, edge n Lp Li u v -> step u < step v) ->
     exists v, v < n /\ Z.to_nat k <= S (step v)).
Proof.
  intros n Lp Li lp ls n2l0 k ptr lset n2l W D HP HS HN H0 E Hk.
  destruct (build_levelSet_total n Lp Li lp ls n2l0 W D HP HS HN H0)
    as (k' & ptr' & lset' & n2l' & E' & H).
  rewrite E in E'. inversion E'; subst k' ptr' lset' n2l'.
  destruct H as [(? & _)|(_ & HX & _)]; [lia|]. splits.
  - intros l v Hv. exact (levels_depth _ _ _ _ _ _ _ l v HX Hv).
  - intros l Hl. apply (levels_nonempty n Lp Li (Z.to_nat k) ptr lset n2l); auto.
    destruct HX as (_ & HX & _). lia.
  - intros step Hn Hs. destruct HX as (_ & _ & _ & HK & _).
    destruct (HK Hn) as (Hk0 & u & v & Hu & Hc).
    exists v. split; [eapply chain_lt; eauto|].
    pose proof (chain_depth_rank _ step Hs _ _ _ Hc). lia.
Qed.
Print Assumptions C02_level_is_longest_chain.

Example C02_case : exists ptr lset n2l,
  build_levelSet_CSC 5 [0;3;5;7;9;10] [0;2;4;1;2;2;3;3;4;4] (repeat 0 6) (repeat 0 5) (repeat 0 5)
  = Ok (4%Z, (ptr, lset, n2l)) /\ n2l = [0;0;1;2;3].
Proof. do 3 eexists. split; vm_compute; reflexivity. Qed.

(** C03.  The call always returns, and the result is -1 exactly when the graph is
    non-empty and has a cycle or a dependence chain through all nodes. *)
Theorem C03_failure_code_meaning :
  forall n Lp Li levelPtr levelSet node_to_level,
  wf_csc n Lp Li -> one_diag n Lp Li ->
  n <= length levelPtr -> n <= length levelSet -> n <= length node_to_level -> levelPtr.[0] = 0 ->
  exists k arrays,
    build_levelSet_CSC n Lp Li levelPtr levelSet node_to_level = Ok (k, arrays) /\
    (-1 <= k)%Z /\
    (k = (-1)%Z <-> 0 < n /\ (has_cycle (edge n Lp Li) \/ visits_all n (edge n Lp Li))).
Proof.
  intros n Lp Li lp ls n2l W D HP HS HN H0.
  destruct (build_levelSet_total n Lp Li lp ls n2l W D HP HS HN H0)
    as (k & ptr & lset & n2l' & E & H).
  exists k, (ptr, lset, n2l'). splits; auto.
  - destruct H as [(? & _)|(? & _)]; lia.
  - destruct H as [(? & ? & ?)|(? & _ & ?)]; split; auto; try lia; tauto.
Qed.
Print Assumptions C03_failure_code_meaning.

(** both situations occur: a chain 0 -> 1 -> 2 is reported as a failure although
    acyclic, and so is every one-node graph *)
Example C03_chain_case :
  lower_tri 3 [0;2;4;5] [0;1;1;2;2] /\ visits_all 3 (edge 3 [0;2;4;5] [0;1;1;2;2]) /\
  exists a, build_levelSet_CSC 3 [0;2;4;5] [0;1;1;2;2] (repeat 0 4) (repeat 0 3) (repeat 0 3) = Ok ((-1)%Z, a).
Proof.
  splits.
  - now apply lower_trib_ok.
  - exists [0;1;2]. split; [now apply is_permb_ok|].
    intros [|[|i]] Hi; [| |lia]; (split; [unfold aget; simpl; lia|split; [|discriminate]]).
    + exists 1. split; [unfold aget; simpl; lia|reflexivity].
    + exists 3. split; [unfold aget; simpl; lia|reflexivity].
  - eexists. vm_compute. reflexivity.
Qed.

Example C03_cycle_case :
  exists a, build_levelSet_CSC 3 [0;2;4;5] [0;1;1;0;2] (repeat 0 4) (repeat 0 3) (repeat 0 3) = Ok ((-1)%Z, a).
Proof. eexists. vm_compute. reflexivity. Qed.

(** C04.  The sym_lib variants report the same count and slices as the HDAGG one ... *)
Theorem C04_variants_agree :
  forall n Lp Li LevelPtr LevelSet node_to_level k ptr lset n2l,
  build_levelSet_CSC n Lp Li (repeat 0 (n + 1)) (repeat 0 n) node_to_level = Ok (k, (ptr, lset, n2l)) ->
  build_levelSet_CSC_inplace n Lp Li (repeat 0 (n + 1)) (repeat 0 n) = Ok (k, (ptr, lset)) /\
  build_levelSet_CSC_alloc n Lp Li = Ok (k, (ptr, lset)) /\
  (LevelPtr = [] -> LevelSet = [] -> computingLevelSet_CSC n Lp Li LevelPtr LevelSet = Ok (k, (ptr, lset))).
Proof.
  intros n Lp Li LP LS n2l0 k ptr lset n2l E.
  assert (G := inplace_proj _ _ _ _ _ _ _ _ _ _ E). splits; auto.
  intros -> ->. unfold computingLevelSet_CSC, resize. rewrite !firstn_nil. simpl.
  now rewrite !Nat.sub_0_r.
Qed.
Print Assumptions C04_variants_agree.

(** ... computingLevelSet_CSC, called with vectors of any previous size whose first
    entry is 0, returns the exact wavefronts or -1 in the same cases ... *)
Theorem C04_computingLevelSet :
  forall n Lp Li LevelPtr LevelSet,
  wf_csc n Lp Li -> one_diag n Lp Li -> LevelPtr.[0] = 0 ->
  exists k ptr lset, computingLevelSet_CSC n Lp Li LevelPtr LevelSet = Ok (k, (ptr, lset)) /\
    (k = (-1)%Z <-> 0 < n /\ (has_cycle (edge n Lp Li) \/ visits_all n (edge n Lp Li))) /\
    ((0 <= k)%Z -> level_partition n (Z.to_nat k) ptr lset /\
       forall l v, v < n ->
         (l < Z.to_nat k /\ in_level ptr lset l v <-> depth_is (edge n Lp Li) v l)).
Proof.
  intros n Lp Li LP LS W D H0.
  destruct (inplace_total n Lp Li (resize LP (n + 1)) (resize LS n) W D) as (k & ptr & lset & n2l & E & H).
  - rewrite resize_length. lia.
  - rewrite resize_length. lia.
  - unfold resize. destruct LP as [|x LP].
    + rewrite firstn_nil. simpl. rewrite aget_repeat; auto. lia.
    + rewrite Nat.add_1_r. simpl. rewrite aget_cons_0. exact H0.
  - exists k, ptr, lset. splits; auto.
    + destruct H as [(? & ? & ?)|(? & _ & ?)]; split; auto; try lia; tauto.
    + intros Hk. destruct H as [(? & _)|(_ & HX & _)]; [lia|]. split; [apply HX|].
      intros l v Hv. exact (levels_depth _ _ _ _ _ _ _ l v HX Hv).
Qed.
Print Assumptions C04_computingLevelSet.

(** ... computingNode2Level inverts the slices ... *)
Theorem C04_node2level :
  forall n nlevels ptr lset old,
  nlevels < length ptr -> n <= length lset -> level_partition n nlevels ptr lset ->
  exists n2l, computingNode2Level ptr lset (Z.of_nat nlevels) n old = Ok n2l /\ length n2l = n /\
    forall l v, l < nlevels -> in_level ptr lset l v -> n2l.[v] = l.
Proof.
  intros n nlevels ptr lset old H1 H2 H3. apply wp_ok.
  apply (node2level_wp n nlevels); auto.
Qed.
Print Assumptions C04_node2level.

(** ... and the queue based builder returns the exact wavefronts of every acyclic
    graph with diagonal-first columns, including the single chain the others reject. *)
Theorem C04_queue_variant :
  forall n Lp Li levelPtr levelSet,
  wf_csc n Lp Li -> diag_first n Lp Li -> acyclic (edge n Lp Li) ->
  n < length levelPtr -> n <= length levelSet -> levelPtr.[0] = 0 ->
  exists k ptr lset, buildLevelSet_CSC_Queue n Lp Li levelPtr levelSet = Ok (k, (ptr, lset)) /\
    level_partition n k ptr lset /\ level_ordered (edge n Lp Li) k ptr lset /\
    (forall l, l < k -> exists v, in_level ptr lset l v) /\
    (forall l v, l < k -> in_level ptr lset l v -> depth_is (edge n Lp Li) v l) /\
    k < length ptr /\ n <= length lset.
Proof.
  intros n Lp Li lp ls W DF HA HP HS H0.
  destruct (queue_total n Lp Li W DF lp ls HP HS H0 HA) as (k & ptr & lset & E & HPt & HNe & HD & HL1 & HL2).
  assert (HD' : forall l v, l < k -> in_level ptr lset l v -> depth_is (edge n Lp Li) v l).
  { intros l v Hl [i [Hi <-]]. auto. }
  exists k, ptr, lset. splits; auto.
  - intros u v lu lv He Hlu Hlv Hu Hv.
    destruct (HD' lu u Hlu Hu) as [[w Hw] _]. destruct (HD' lv v Hlv Hv) as [_ Hm].
    specialize (Hm w (S lu) ltac:(econstructor; eauto)). lia.
  - intros l Hl. specialize (HNe l Hl). exists lset.[ptr.[l]]. exists ptr.[l]. split; [lia|auto].
Qed.
Print Assumptions C04_queue_variant.

Example C04_queue_chain_case :
  exists ptr lset, buildLevelSet_CSC_Queue 3 [0;2;4;5] [0;1;1;2;2] (repeat 0 4) (repeat 0 3)
    = Ok (3, (ptr, lset)) /\ lset = [0;1;2].
Proof. do 2 eexists. split; vm_compute; reflexivity. Qed.
