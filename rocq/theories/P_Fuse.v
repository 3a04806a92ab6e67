(** C116-C118: level_set_bn, find and sup2node_gen, bcsc_csc_bcsc_levelset. *)
From Verif Require Import Base Lib Lib2 Spec SpecSuper SpecFuse Check L_LBC5 M_Multi M_Fuse L_Bfs L_Fuse L_Fuse2 L_Fuse3.
From Coq Require Import ZifyBool ZifyNat.

Lemma rep_level_sets Ls lp ls m (at_level : nat -> nat -> Prop) : rep Ls lp ls -> length lp = S (length Ls) -> length ls = m -> length (concat Ls) = m ->
  NoDup (concat Ls) -> (forall l, l < length Ls -> Ls.[l] <> []) -> (forall l x, l < length Ls -> (In x Ls.[l] <-> at_level l x)) ->
  (forall l x, at_level l x -> l < length Ls) -> level_sets (length Ls) m lp ls at_level.
Proof.
  intros R H1 H2 H3 H4 H5 H6 H7. pose proof R as [R1 R2]. assert (EC : ls = concat Ls).
  { apply list_ext; [lia|]. intros i Hi. apply R2. lia. }
  unfold level_sets. splits; auto.
  - rewrite R1 by lia. reflexivity.
  - rewrite R1 by lia. now rewrite firstn_all.
  - intros l Hl. rewrite !R1 by lia. assert (E : firstn (S l) Ls = firstn l Ls ++ [Ls.[l]]).
    { clear - Hl. revert l Hl. induction Ls as [|a Ls IH]; intros [|l] Hl; simpl in Hl; try lia; [reflexivity|]. rewrite aget_cons_S. cbn [firstn app]. f_equal. apply IH. lia. }
    rewrite E, concat_app, app_length. cbn [concat]. rewrite app_nil_r. specialize (H5 l Hl). destruct Ls.[l]; [contradiction|cbn [length]; lia].
  - now rewrite EC.
  - intros l x Hl. rewrite (rep_in_level Ls lp ls l x R Hl). now apply H6.
Qed.

(** * C116: level_set_bn *)

Theorem C116_block_levels : forall lower n nodes K Lp Li super,
  cutsZ lower n nodes super -> wf_csc n Lp Li -> tri_of lower n Lp Li -> 0 < n -> 0 < K ->
  (1 < K -> forall c, c < n -> (Z.of_nat (Lp.[S c] - Lp.[c]) < 16843008)%Z) ->
  exists k lp ls, level_set_bn n Lp Li super nodes K lower = Ok (k, (lp, ls)) /\
    level_sets k (K * nodes) lp ls (fun l x => exists s q d, s < nodes /\ q < K /\ x = lead super s + n * q /\
      depth_is (lead_edge lower nodes Lp Li super) s d /\ l = d + q).
Proof.
  intros lower n nodes K Lp Li super CU W TR N0 K0 SM.
  assert (G : wp (level_set_bn n Lp Li super nodes K lower) (fun r => let '(k, (lp, ls)) := r in
    level_sets k (K * nodes) lp ls (fun l x => exists s q d, s < nodes /\ q < K /\ x = lead super s + n * q /\ depth_is (lead_edge lower nodes Lp Li super) s d /\ l = d + q))).
  { unfold level_set_bn. destruct (Nat.eqb_spec K 0); [lia|]. cbn [andb].
    enough (H : forall sup, sup_ok lower n nodes super sup -> wp (deg <- bn_degrees lower n K Lp Li sup super nodes ;;
      '(queue, inq) <- fuse_sources super nodes deg (repeat false (K * n)) ;;
      fuse_levels (bn_targets lower n Lp Li sup) (bn_extra n K) deg (K * n) (K * nodes) (K * nodes + 1) queue inq) (fun r => let '(k, (lp, ls)) := r in
    level_sets k (K * nodes) lp ls (fun l x => exists s q d, s < nodes /\ q < K /\ x = lead super s + n * q /\ depth_is (lead_edge lower nodes Lp Li super) s d /\ l = d + q))).
    { apply wp_bind. destruct lower; [apply supers_lower_wp|apply supers_upper_wp]; auto. }
    intros sup SU. apply (bn_levels_wp lower n nodes K Lp Li super sup CU SU W TR K0 N0 SM). intros Ls lp ls L1 L2 L3 L4 L5 L6 L7 L8.
    pose proof (bn_lev_depth lower n nodes K Lp Li super sup CU SU W TR K0 N0) as DP.
    apply rep_level_sets; auto.
    - intros l x Hl. rewrite (L1 l x Hl). split.
      + intros (s & q & Hs & Hq & -> & ->). exists s, q, (bn_lev lower n nodes Lp Li super sup (lead super s)). splits; auto.
      + intros (s & q & d & Hs & Hq & -> & Hd & ->). exists s, q. splits; auto. f_equal. eapply depth_is_unique; eauto.
    - intros l x (s & q & d & Hs & Hq & -> & Hd & ->). rewrite (depth_is_unique _ _ _ _ Hd (DP s Hs)). auto. }
  apply wp_ok in G. destruct G as ((k & lp & ls) & E & H). eauto.
Qed.
Print Assumptions C116_block_levels.

Lemma chain_ext (E E' : nat -> nat -> Prop) : (forall a b, E a b -> E' a b) -> forall u v k, chain E u v k -> chain E' u v k.
Proof. intros H u v k C. induction C; [constructor|econstructor; eauto]. Qed.
Lemma depth_ext (E E' : nat -> nat -> Prop) v d : (forall a b, E a b <-> E' a b) -> depth_is E v d -> depth_is E' v d.
Proof.
  intros H [(u & C) M]. split; [exists u; apply (chain_ext E E'); [intros a b; apply H|exact C]|]. intros w k C'. apply (M w k). apply (chain_ext E' E); [intros a b; apply H|exact C'].
Qed.

(** blocks whose leading column holds all rows outside the block: levels of the graph of the blocks *)
Theorem C116_cover : forall lower n nodes Lp Li super s t, cutsZ lower n nodes super -> lead_covers lower nodes Lp Li super ->
  (lead_edge lower nodes Lp Li super s t <-> block_edge lower nodes Lp Li super s t).
Proof.
  intros lower n nodes Lp Li super s t CU LC. split; intros (Hs & Ht & Hne & H).
  - destruct H as (v & He & Hb). unfold block_edge. splits; auto. exists (lead super s), v. splits; auto. now apply (lead_has lower n nodes super CU).
  - destruct H as (u & v & Hu & He & Hb). unfold lead_edge. splits; auto. exists v. split; auto. destruct (LC s u v Hs Hu He) as [H|H]; auto.
    exfalso. apply Hne. now apply (block_one lower n nodes super CU s t v).
Qed.
Print Assumptions C116_cover.

Theorem C116_block_graph_levels : forall lower n nodes K Lp Li super,
  cutsZ lower n nodes super -> wf_csc n Lp Li -> tri_of lower n Lp Li -> lead_covers lower nodes Lp Li super -> 0 < n -> 0 < K ->
  (1 < K -> forall c, c < n -> (Z.of_nat (Lp.[S c] - Lp.[c]) < 16843008)%Z) ->
  exists k lp ls, level_set_bn n Lp Li super nodes K lower = Ok (k, (lp, ls)) /\
    level_sets k (K * nodes) lp ls (fun l x => exists s q d, s < nodes /\ q < K /\ x = lead super s + n * q /\
      depth_is (block_edge lower nodes Lp Li super) s d /\ l = d + q).
Proof.
  intros lower n nodes K Lp Li super CU W TR LC N0 K0 SM. destruct (C116_block_levels lower n nodes K Lp Li super CU W TR N0 K0 SM) as (k & lp & ls & E & H1 & H2 & H3 & H4 & H5 & H6 & H7 & H8).
  assert (X : forall s d, depth_is (lead_edge lower nodes Lp Li super) s d <-> depth_is (block_edge lower nodes Lp Li super) s d).
  { intros s d. split; apply depth_ext; intros a b; [|symmetry]; now apply (C116_cover lower n). }
  exists k, lp, ls. split; auto. unfold level_sets. splits; auto.
  - intros l x Hl. rewrite (H7 l x Hl). split; intros (s & q & d & A & B & C & D & F); exists s, q, d; splits; auto; now apply X.
  - intros l x (s & q & d & A & B & C & D & F). apply (H8 l x). exists s, q, d. splits; auto. now apply X.
Qed.
Print Assumptions C116_block_graph_levels.

(** the supernodes found in a matrix have the property *)
Lemma column_entry Lp Li u v : Lp.[u] <= Lp.[S u] -> Lp.[S u] <= length Li -> (entry Lp Li u v <-> In v (column Lp Li u)).
Proof.
  intros H1 H2. unfold column, entry. split.
  - intros (k & Hk & <-). replace k with (Lp.[u] + (k - Lp.[u])) by lia.
    rewrite <- (aget_slice Li Lp.[u] Lp.[S u]) by lia. apply aget_In. rewrite slice_length; lia.
  - intros H. apply In_aget in H. destruct H as (i & Hi & <-). rewrite slice_length in Hi by lia. exists (Lp.[u] + i). split; [lia|]. now rewrite aget_slice by lia.
Qed.

Theorem C116_found_lower : forall n w Lp Li c, wf_csc n Lp Li -> 0 < n -> max_runs n w (same_below Lp Li) c ->
  cutsZ true n (length c - 1) (map Z.of_nat c) /\ lead_covers true (length c - 1) Lp Li (map Z.of_nat c).
Proof.
  intros n w Lp Li c W N0 (R1 & R2 & R3 & R4). pose proof W as (W1 & W2 & W3 & W4 & W5).
  assert (AG : forall i, i < length c -> (map Z.of_nat c).[i] = Z.of_nat c.[i]) by (intros i Hi; now rewrite (aget_map Z.of_nat)).
  assert (CU : cutsZ true n (length c - 1) (map Z.of_nat c)).
  { split; [rewrite map_length; lia|]. rewrite !AG by lia. splits; [lia|lia|]. intros s Hs. rewrite !AG by lia. destruct (R4 s ltac:(lia)). lia. }
  split; auto. intros s u v Hs Hu He. left. pose proof (has_lt true n _ _ CU s u Hs Hu) as Hun. pose proof (lead_lt true n _ _ CU s Hs) as Hl.
  unfold block_has in Hu. rewrite !AG in Hu by lia. unfold lead in *. rewrite AG, Nat2Z.id in * by lia. destruct (R4 s ltac:(lia)) as (_ & R5 & _). destruct (R5 u ltac:(lia)) as [S1 S2].
  assert (M : forall a, a < n -> Lp.[S a] <= length Li) by (intros a Ha; assert (Lp.[S a] <= Lp.[n]) by (apply (mono_le (aget Lp) n); auto); lia).
  apply column_entry in He; auto. apply column_entry; auto. rewrite S2 in He. rewrite <- (firstn_skipn (u - c.[s])). apply in_app_iff. now right.
Qed.
Print Assumptions C116_found_lower.

Theorem C116_found_upper : forall n w Lp Li c, wf_csc n Lp Li -> 0 < n -> max_runs_back n w (same_above Lp Li) c ->
  cutsZ false n (length c - 1) c /\ lead_covers false (length c - 1) Lp Li c.
Proof.
  intros n w Lp Li c W N0 (R1 & R2 & R3 & R4). pose proof W as (W1 & W2 & W3 & W4 & W5).
  assert (CU : cutsZ false n (length c - 1) c).
  { split; [lia|]. splits; auto. intros s Hs. destruct (R4 s ltac:(lia)) as (_ & H & _). lia. }
  split; auto. intros s u v Hs Hu He. left. pose proof (has_lt false n _ _ CU s u Hs Hu) as Hun. pose proof (lead_lt false n _ _ CU s Hs) as Hl.
  unfold lead in *. destruct (R4 s ltac:(lia)) as (_ & _ & R5 & _). destruct (R5 u Hu) as (t & _ & S2).
  assert (M : forall a, a < n -> Lp.[S a] <= length Li) by (intros a Ha; assert (Lp.[S a] <= Lp.[n]) by (apply (mono_le (aget Lp) n); auto); lia).
  apply column_entry in He; auto. apply column_entry; auto. rewrite S2. apply in_app_iff. now left.
Qed.
Print Assumptions C116_found_upper.

(** blocks 0, {1,2}, 3; two copies *)
Example C116_nonvacuous : exists k lp ls, level_set_bn 4 [0;2;5;7;8] [0;1;1;2;3;2;3;3] [0;1;3;4]%Z 3 2 true = Ok (k, (lp, ls)) /\
  level_sets k 6 lp ls (fun l x => exists s q d, s < 3 /\ q < 2 /\ x = lead [0;1;3;4]%Z s + 4 * q /\
    depth_is (block_edge true 3 [0;2;5;7;8] [0;1;1;2;3;2;3;3] [0;1;3;4]%Z) s d /\ l = d + q) /\ k = 4 /\ ls = [0;1;4;3;5;7].
Proof.
  destruct (C116_block_graph_levels true 4 3 2 [0;2;5;7;8] [0;1;1;2;3;2;3;3] [0;1;3;4]%Z) as (k & lp & ls & E & H).
  - split; [cbn; lia|]. splits; try reflexivity. intros [|[|[|s]]] Hs; try lia; cbn; lia.
  - apply wf_cscb_ok. vm_compute. reflexivity.
  - split; [apply diag_firstb_ok; vm_compute; reflexivity|apply lower_trib_ok; vm_compute; reflexivity].
  - intros s u v Hs Hu (k & Hk & <-). unfold block_has in Hu. destruct s as [|[|[|s]]]; try lia; unfold aget in Hu; cbn in Hu.
    + assert (u = 0) by lia. subst u. left. exists k. auto.
    + assert (u = 1 \/ u = 2) as [->| ->] by lia; [left; exists k; auto|]. left. unfold aget in Hk; cbn in Hk. exists (k - 2). change (lead [0;1;3;4]%Z 1) with 1.
      assert (k = 5 \/ k = 6) as [->| ->] by lia; (split; [unfold aget; cbn; lia|reflexivity]).
    + assert (u = 3) by lia. subst u. left. exists k. auto.
  - lia.
  - lia.
  - intros _ c Hc. destruct c as [|[|[|[|c]]]]; try lia; cbn; lia.
  - exists k, lp, ls. split; auto. split; auto. rewrite (proj1 bn_run) in E || idtac. destruct bn_run as (_ & E2 & _). rewrite E2 in E. injection E as <- <- <-. auto.
Qed.

(** a block whose second column has a row that the first has not: block {2} depends on block {0,1} and is in the same level *)
Theorem C116_cover_needed_refuted : exists n nodes Lp Li super k lp ls, cutsZ true n nodes super /\ wf_csc n Lp Li /\ tri_of true n Lp Li /\
  block_edge true nodes Lp Li super 0 1 /\ level_set_bn n Lp Li super nodes 1 true = Ok (k, (lp, ls)) /\ in_level lp ls 0 (lead super 0) /\ in_level lp ls 0 (lead super 1).
Proof.
  exists 3, 2, [0;2;4;5], [0;1;1;2;2], [0;2;3]%Z, 1, [0;2], [0;2]. splits.
  - split; [cbn; lia|]. splits; try reflexivity. intros [|[|s]] Hs; try lia; cbn; lia.
  - apply wf_cscb_ok. vm_compute. reflexivity.
  - split; [apply diag_firstb_ok; vm_compute; reflexivity|apply lower_trib_ok; vm_compute; reflexivity].
  - unfold block_edge. splits; try lia. exists 1, 2. unfold block_has, aget; cbn. splits; try lia. exists 3. cbn. lia.
  - vm_compute. reflexivity.
  - exists 0. cbn. lia.
  - exists 1. cbn. lia.
Qed.
Print Assumptions C116_cover_needed_refuted.

Theorem C116_no_copies_refuted : forall lower n nodes Lp Li super, 0 < n -> level_set_bn n Lp Li super nodes 0 lower = Err OOB.
Proof. intros lower n nodes Lp Li super H. unfold level_set_bn. destruct (Nat.ltb_spec 0 n); [reflexivity|lia]. Qed.
Print Assumptions C116_no_copies_refuted.

(** * C117: find and sup2node_gen *)

Theorem C117_found : forall super nodes k fuel, nodes < length super -> (forall s, s < nodes -> (super.[s] < super.[S s])%Z) -> k <= nodes -> nodes < fuel ->
  find_block fuel super 0 nodes super.[k] = Ok k.
Proof. intros super nodes k fuel H1 H2 H3 H4. apply (find_block_ok super nodes); auto; lia. Qed.
Print Assumptions C117_found.

(** a column that starts no block: the search never ends *)
Theorem C117_absent_refuted : forall super nodes target fuel, nodes < length super -> (forall i, i <= nodes -> super.[i] <> target) ->
  find_block fuel super 0 nodes target = Err Fuel.
Proof. intros super nodes target fuel H1 H2. apply find_block_absent; [lia|]. intros i Hi. apply H2. lia. Qed.
Print Assumptions C117_absent_refuted.

(** blocks from the last to the first: the search for the first of two or more never ends *)
Theorem C117_descending_refuted : forall n nodes super fuel, cutsZ false n nodes super -> 2 <= nodes -> find_block fuel super 0 nodes super.[0] = Err Fuel.
Proof.
  intros n nodes super fuel (C1 & C2 & C3 & C4) Hn. destruct fuel as [|fuel]; [reflexivity|]. cbn [find_block]. destruct (Nat.eqb_spec 0 nodes); [lia|]. cbn [bind].
  destruct (Nat.eqb_spec nodes 1); [lia|]. cbn [bind]. cbv zeta. rewrite Nat.add_0_r. assert (B : 0 < nodes / 2 <= nodes) by (split; [apply Nat.div_str_pos; lia|apply Nat.div_le_upper_bound; lia]).
  assert (M : forall i, 0 < i -> i <= nodes -> (super.[i] < super.[0])%Z).
  { induction i as [|i IH]; intros H H'; [lia|]. pose proof (C4 i ltac:(lia)). destruct (Nat.eq_dec i 0) as [->|]; [auto|]. specialize (IH ltac:(lia) ltac:(lia)). lia. }
  rewrite rd_ok by lia. cbn [bind]. pose proof (M (nodes / 2) ltac:(lia) ltac:(lia)). destruct (Z.eqb_spec super.[nodes / 2] super.[0]); [lia|]. destruct (Z.ltb_spec super.[0] super.[nodes / 2]); [lia|].
  apply find_block_absent; [lia|]. intros i Hi. pose proof (M i ltac:(lia) ltac:(lia)). lia.
Qed.
Print Assumptions C117_descending_refuted.

(** every column of the level sets becomes the number of its block *)
Theorem C117_blocks : forall n nodes size levels super fuel, cutsZ true n nodes super -> 0 < n -> nodes < fuel -> size <= length levels ->
  (forall i, i < size -> exists s q, s < nodes /\ levels.[i] = lead super s + n * q) ->
  exists r, sup2node_gen fuel n size levels nodes super = Ok r /\ length r = size /\ forall i s q, i < size -> s < nodes -> levels.[i] = lead super s + n * q -> r.[i] = s.
Proof.
  intros n nodes size levels super fuel CU N0 HF HS HL. pose proof CU as (C1 & C2 & C3 & C4).
  assert (G : wp (sup2node_gen fuel n size levels nodes super) (fun r => length r = size /\ forall i s q, i < size -> s < nodes -> levels.[i] = lead super s + n * q -> r.[i] = s)).
  { unfold sup2node_gen. apply (wp_for (fun j r => length r = size /\ forall i s q, i < j -> s < nodes -> levels.[i] = lead super s + n * q -> r.[i] = s)); [lia| | |].
    - split; [apply repeat_length|]. intros i s q Hi. lia.
    - intros j r Hj (I1 & I2). wp1. wp1; [lia|]. destruct (Nat.eqb_spec n 0); [lia|]. destruct (HL j ltac:(lia)) as (s & q & Hs & E). pose proof (lead_lt true n nodes super CU s Hs) as Hl.
      assert (ED : levels.[j] / n = q) by (rewrite E, (Nat.mul_comm n q), Nat.div_add, Nat.div_small by lia; lia). rewrite ED. replace (levels.[j] - q * n) with (lead super s) by lia.
      rewrite <- (lead_pos true n nodes super CU s Hs). rewrite (find_block_ok super nodes s C1 C4) by lia. cbn [bind]. wp1; [lia|]. rewrite upd_length. split; auto.
      intros i s' q' Hi Hs' Ei. rewrite aget_upd by lia. destruct (Nat.eqb_spec i j) as [->|]; [|apply (I2 i s' q'); auto; lia].
      pose proof (lead_lt true n nodes super CU s' Hs') as Hl'. assert (ED' : levels.[j] / n = q') by (rewrite Ei, (Nat.mul_comm n q'), Nat.div_add, Nat.div_small by lia; lia).
      assert (q = q') by congruence. subst q'. apply (lead_inj true n nodes super CU); auto. lia.
    - intros r H. exact H. }
  apply wp_ok in G. destruct G as (r & E & H1 & H2). exists r. auto.
Qed.
Print Assumptions C117_blocks.

Example C117_nonvacuous : exists r, sup2node_gen 4 4 6 [0;1;4;3;5;7] 3 [0;1;3;4]%Z = Ok r /\ r = [0;1;0;2;1;2] /\ find_block 4 [0;1;3;4]%Z 0 3 3 = Ok 2.
Proof. eexists. vm_compute. auto. Qed.

(** * C118: bcsc_csc_bcsc_levelset *)

Theorem C118_fused_levels : forall fuel n Ap Ai Bp Bi Cp Ci nodes super,
  cutsZ true n nodes super -> wf_csc n Ap Ai -> wf_csc n Bp Bi -> wf_csc n Cp Ci -> tri_of true n Ap Ai -> tri_of true n Cp Ci -> 0 < n -> nodes < fuel ->
  (forall t, t < nodes -> exists x, fused_edge nodes Ap Ai Bp Bi Cp Ci super x (nodes + t)) ->
  exists k lp ls, bcsc_csc_bcsc_levelset fuel n Ap Ai Bp Bi Cp Ci nodes super = Ok (k, (lp, ls)) /\
    level_sets k (2 * nodes) lp ls (fun l v => exists x, x < 2 * nodes /\ v = code n nodes super x /\ depth_is (fused_edge nodes Ap Ai Bp Bi Cp Ci super) x l).
Proof.
  intros fuel n Ap Ai Bp Bi Cp Ci nodes super CU WA WB WC TA TC N0 HF IN2.
  assert (G : wp (bcsc_csc_bcsc_levelset fuel n Ap Ai Bp Bi Cp Ci nodes super) (fun r => let '(k, (lp, ls)) := r in
    level_sets k (2 * nodes) lp ls (fun l v => exists x, x < 2 * nodes /\ v = code n nodes super x /\ depth_is (fused_edge nodes Ap Ai Bp Bi Cp Ci super) x l))).
  { unfold bcsc_csc_bcsc_levelset. apply wp_bind, supers_lower_wp; auto. intros sup SU.
    pose proof (fu_lev_depth n nodes Ap Ai Bp Bi Cp Ci super sup CU SU WA WB WC TA TC N0 fuel HF) as DP.
    apply (fused_levels_wp n nodes Ap Ai Bp Bi Cp Ci super sup CU SU WA WB WC TA TC N0 fuel HF IN2). intros Ls lp ls L1 L2 L3 L4 L5 L6 L7 L8.
    apply rep_level_sets; auto.
    - intros l x Hl. rewrite (L1 l x Hl). split.
      + intros (y & Hy & -> & ->). exists y. splits; auto.
      + intros (y & Hy & -> & Hd). exists y. splits; auto. eapply depth_is_unique; eauto.
    - intros l x (y & Hy & -> & Hd). rewrite (depth_is_unique _ _ _ _ Hd (DP y Hy)). auto. }
  apply wp_ok in G. destruct G as ((k & lp & ls) & E & H). eauto.
Qed.
Print Assumptions C118_fused_levels.

(** two blocks; the product between the kernels touches only the first block of the second kernel: the second block, an
    independent one, is in no level *)
Theorem C118_lost_block_refuted : exists n nodes Ap Ai Bp Bi Cp Ci super k lp ls,
  cutsZ true n nodes super /\ wf_csc n Ap Ai /\ wf_csc n Bp Bi /\ wf_csc n Cp Ci /\ tri_of true n Ap Ai /\ tri_of true n Cp Ci /\
  bcsc_csc_bcsc_levelset 9 n Ap Ai Bp Bi Cp Ci nodes super = Ok (k, (lp, ls)) /\ forall l, l < k -> ~ in_level lp ls l (code n nodes super (nodes + 1)).
Proof.
  exists 2, 2, [0;1;2], [0;1], [0;1;1], [0], [0;1;2], [0;1], [0;1;2]%Z, 2, [0;2;3], [0;1;2;0]. splits.
  - split; [cbn; lia|]. splits; try reflexivity. intros [|[|s]] Hs; try lia; cbn; lia.
  - apply wf_cscb_ok. vm_compute. reflexivity.
  - apply wf_cscb_ok. vm_compute. reflexivity.
  - apply wf_cscb_ok. vm_compute. reflexivity.
  - split; [apply diag_firstb_ok; vm_compute; reflexivity|apply lower_trib_ok; vm_compute; reflexivity].
  - split; [apply diag_firstb_ok; vm_compute; reflexivity|apply lower_trib_ok; vm_compute; reflexivity].
  - vm_compute. reflexivity.
  - intros [|[|l]] Hl (k & Hk & E); try lia; unfold code, lead, aget in E, Hk; cbn in E, Hk; destruct k as [|[|[|k]]]; cbn in E; lia.
Qed.
Print Assumptions C118_lost_block_refuted.

Example C118_nonvacuous : exists k lp ls,
  bcsc_csc_bcsc_levelset 9 4 [0;2;5;7;8] [0;1;1;2;3;2;3;3] [0;1;2;3;4] [0;1;2;3] [0;2;5;7;8] [0;1;1;2;3;2;3;3] 3 [0;1;3;4]%Z = Ok (k, (lp, ls)) /\
  level_sets k 6 lp ls (fun l v => exists x, x < 6 /\ v = code 4 3 [0;1;3;4]%Z x /\
    depth_is (fused_edge 3 [0;2;5;7;8] [0;1;1;2;3;2;3;3] [0;1;2;3;4] [0;1;2;3] [0;2;5;7;8] [0;1;1;2;3;2;3;3] [0;1;3;4]%Z) x l) /\ k = 4.
Proof.
  destruct (C118_fused_levels 9 4 [0;2;5;7;8] [0;1;1;2;3;2;3;3] [0;1;2;3;4] [0;1;2;3] [0;2;5;7;8] [0;1;1;2;3;2;3;3] 3 [0;1;3;4]%Z) as (k & lp & ls & E & H).
  - split; [cbn; lia|]. splits; try reflexivity. intros [|[|[|s]]] Hs; try lia; cbn; lia.
  - apply wf_cscb_ok. vm_compute. reflexivity.
  - apply wf_cscb_ok. vm_compute. reflexivity.
  - apply wf_cscb_ok. vm_compute. reflexivity.
  - split; [apply diag_firstb_ok; vm_compute; reflexivity|apply lower_trib_ok; vm_compute; reflexivity].
  - split; [apply diag_firstb_ok; vm_compute; reflexivity|apply lower_trib_ok; vm_compute; reflexivity].
  - lia.
  - lia.
  - intros t Ht. exists t. right. left. splits; try lia. replace (3 + t - 3) with t by lia. exists (lead [0;1;3;4]%Z t), (lead [0;1;3;4]%Z t).
    assert (H3 : forall c, c < 4 -> entry [0;1;2;3;4] [0;1;2;3] c c) by (intros [|[|[|[|c]]]] Hc; try lia; [exists 0|exists 1|exists 2|exists 3]; cbn; lia).
    destruct t as [|[|[|t]]]; try lia; (split; [unfold block_has, lead, aget; cbn; lia|split; [apply H3; unfold lead, aget; cbn; lia|unfold block_has, lead, aget; cbn; lia]]).
  - exists k, lp, ls. split; auto. split; auto. rewrite bcb_run in E. injection E as <- <- <-. reflexivity.
Qed.
