(** Properties of the blocked LBC: build_levelSet_BCSC and getCoarseLevelSet_DAG_BCSC02. *)
From Verif Require Import Base Lib Spec SpecBCSC M_LevelSet M_LBC M_LBCTree M_BCSC L_BCSC L_BCSC2 L_BCSC5.
From Coq Require Import ZifyBool ZifyNat.

(** * C103: the level sets of blocks *)

(** The array of degrees has one cell per block; the function reads the cell after the last one, whatever the blocks are. *)
Theorem C103_block_levels_out_of_bounds : forall nb b2c c2b Lip Li, blk_ok nb b2c c2b Lip Li -> 0 < nb ->
  build_levelSet_BCSC b2c c2b Lip Li [] nb = Err OOB.
Proof. intros. now apply bcsc_levels_oob. Qed.
Print Assumptions C103_block_levels_out_of_bounds.

(** With any word other than 1 behind the array the result is right: every block is in one level, and the level of a block
    is the length of the longest chain of blocks that end in it. *)
Theorem C103_block_levels_by_depth : forall nb b2c c2b Lip Li g more, blk_ok nb b2c c2b Lip Li -> g <> 1%Z ->
  exists k levelPtr levelSet, build_levelSet_BCSC b2c c2b Lip Li (g :: more) nb = Ok (k, (levelPtr, levelSet)) /\
    level_partition nb k levelPtr levelSet /\
    (forall l i, l < k -> levelPtr.[l] <= i < levelPtr.[S l] -> depth_is (bedge nb b2c c2b Lip Li) levelSet.[i] l) /\
    (forall l, l < k -> levelPtr.[l] < levelPtr.[S l]) /\ k <= nb.
Proof.
  intros nb b2c c2b Lip Li g more BK Hg.
  pose proof (bcsc_levels_wp nb b2c c2b Lip Li BK g more (fun r => blevels nb b2c c2b Lip Li (fst r) (fst (snd r)) (snd (snd r))) Hg (fun k lp ls H => H)) as H.
  apply (proj1 (wp_ok _ _ _)) in H. destruct H as ([k [lp ls]] & E & (A1 & A2 & A3 & A4 & A5 & A6 & A7)). cbn [fst snd] in *.
  exists k, lp, ls. repeat (split; [assumption|]). split; [|auto].
  intros l i Hl Hi. destruct (A5 l i Hl Hi) as [(u & Hu) H2]. split.
  - exists u. eapply chain_mono; [|exact Hu]. intros x y. apply g_edge. exact BK.
  - intros v d Hd. apply (H2 v). eapply chain_mono; [|exact Hd]. intros x y. apply g_edge. exact BK.
Qed.
Print Assumptions C103_block_levels_by_depth.

(** blocks of 2, 1 and 2 columns, the last with rows in both others *)
Definition bx_b2c := [0; 2; 3; 5].
Definition bx_c2b := [0; 0; 1; 2; 2].
Definition bx_Lip := [0; 0; 4; 6; 6; 8].
Definition bx_Li := [0; 1; 3; 4; 2; 3; 3; 4].
Lemma bx_ok : blk_ok 3 bx_b2c bx_c2b bx_Lip bx_Li.
Proof. apply blk_okb_ok. vm_compute. reflexivity. Qed.
Example C103_case : build_levelSet_BCSC bx_b2c bx_c2b bx_Lip bx_Li [] 3 = Err OOB /\
  build_levelSet_BCSC bx_b2c bx_c2b bx_Lip bx_Li [0%Z] 3 = Ok (2, ([0; 2; 3; 0], [0; 1; 2])) /\ bedge 3 bx_b2c bx_c2b bx_Lip bx_Li 0 2.
Proof. split; [vm_compute; reflexivity|]. split; [vm_compute; reflexivity|]. split; [lia|]. exists 2. vm_compute. split; [lia|reflexivity]. Qed.

(** * C104: the coarsening always goes through that read *)
Theorem C104_blocked_coarsening_out_of_bounds : forall (T : Type) (DT : Dflt T) (zero : T) add ltb int_max sortp nb b2c c2b Lip Li innerParts minLevelDist divRate nodeCost,
  blk_ok nb b2c c2b Lip Li ->
  getCoarseLevelSet_DAG_BCSC02 b2c c2b Lip Li zero add ltb int_max sortp [] nb innerParts minLevelDist divRate nodeCost = Err OOB.
Proof.
  intros T DT zero add ltb im sp nb b2c c2b Lip Li ip md dr cost BK. unfold getCoarseLevelSet_DAG_BCSC02.
  rewrite wr_ok by (rewrite repeat_length; lia). cbn [bind]. destruct (Nat.eq_dec nb 0) as [->|Hn]; [vm_compute; reflexivity|].
  rewrite bcsc_levels_oob by (auto; lia). reflexivity.
Qed.
Print Assumptions C104_blocked_coarsening_out_of_bounds.

Definition run_blocked behind nb b2c c2b Lip Li ip := getCoarseLevelSet_DAG_BCSC02 b2c c2b Lip Li 0 Nat.add Nat.ltb 1000 (fun l => l) behind nb ip 2 2 (repeat 1 nb).
Example C104_case : run_blocked [] 3 bx_b2c bx_c2b bx_Lip bx_Li 2 = Err OOB /\
  run_blocked [0%Z] 3 bx_b2c bx_c2b bx_Lip bx_Li 2 = Ok (1, ([0; 1; 0; 0], [0; 3; 0], [0; 1; 2])).
Proof. split; vm_compute; reflexivity. Qed.

(** * C105: the schedule of the blocks *)

Lemma valid_schedule_ext n (E F : nat -> nat -> Prop) k lp pp np : (forall u v, F u v -> E u v) -> valid_schedule n E k lp pp np -> valid_schedule n F k lp pp np.
Proof. intros H (A & B & C). split; [auto|]. split; [auto|]. intros u v lu pu ku lv pv kv HF. apply C. auto. Qed.

(** Where a harmless word follows the array: if the blocks that need a block lie on one path (as in a forest and in the
    pattern of a Cholesky factor), the schedule is right and no level has more than innerParts parts. *)
Theorem C105_blocked_schedule : forall (T : Type) (DT : Dflt T) (zero : T) add ltb int_max sortp, (forall l, Permutation (sortp l) l) ->
  forall nb b2c c2b Lip Li g more innerParts minLevelDist divRate nodeCost,
  blk_ok nb b2c c2b Lip Li -> successors_on_path (bedge nb b2c c2b Lip Li) -> (exists s t, bedge nb b2c c2b Lip Li s t) ->
  (1 <= innerParts)%Z -> (2 <= minLevelDist)%Z -> nb <= length nodeCost -> g <> 1%Z ->
  exists k levelPtr partPtr nodePtr,
    getCoarseLevelSet_DAG_BCSC02 b2c c2b Lip Li zero add ltb int_max sortp (g :: more) nb innerParts minLevelDist divRate nodeCost
      = Ok (k, (levelPtr, partPtr, nodePtr)) /\
    valid_schedule nb (bedge nb b2c c2b Lip Li) k levelPtr partPtr nodePtr /\ 1 <= k <= nb /\
    length levelPtr = nb + 1 /\ length partPtr = nb /\ length nodePtr = nb /\
    (forall l, l < k -> levelPtr.[S l] - levelPtr.[l] <= Z.to_nat innerParts).
Proof.
  intros T DT zero add ltb im sp HS nb b2c c2b Lip Li g more ip md dr cost BK SP HE Hip Hmd Hcost Hg.
  assert (SP' : successors_on_path (edge nb (gp nb b2c c2b Lip Li) (gi nb b2c c2b Lip Li))).
  { intros u v w A B. apply (g_edge nb b2c c2b Lip Li BK) in A, B. destruct (SP u v w A B) as (k & C). exists k.
    destruct C as [C|C]; [left|right]; (eapply chain_mono; [|exact C]); intros x y; apply g_edge; exact BK. }
  set (P := fun r : nat * (list nat * list nat * list nat) => let '(k, (lp, pp, np)) := r in
    valid_schedule nb (bedge nb b2c c2b Lip Li) k lp pp np /\ 1 <= k <= nb /\ length lp = nb + 1 /\ length pp = nb /\ length np = nb /\
    (forall l, l < k -> lp.[S l] - lp.[l] <= Z.to_nat ip)).
  assert (W : wp (getCoarseLevelSet_DAG_BCSC02 b2c c2b Lip Li zero add ltb im sp (g :: more) nb ip md dr cost) P).
  { apply bcsc_wp; auto. intros k lp pp np A1 A2 A3 A4 A5 A6. unfold P. split; [|auto].
    eapply valid_schedule_ext; [|exact A5]. intros u v H. now apply g_edge. }
  apply (proj1 (wp_ok _ _ _)) in W. destruct W as ([k [[lp pp] np]] & E & HP). exists k, lp, pp, np. split; [exact E|exact HP].
Qed.
Print Assumptions C105_blocked_schedule.

(** the two kinds of inputs meant by the condition *)
Theorem C105_forest_condition : forall (E : nat -> nat -> Prop), (forall u v w, E u v -> E u w -> v = w) -> successors_on_path E.
Proof. intros E H u v w A B. rewrite (H u v w A B). exists 0. left. constructor. Qed.
Print Assumptions C105_forest_condition.
Theorem C105_factor_condition : forall (E : nat -> nat -> Prop), (forall u v w, E u v -> E u w -> v < w -> E v w) -> successors_on_path E.
Proof.
  intros E H u v w A B. destruct (lt_eq_lt_dec v w) as [[L| ->]|L].
  - exists 1. left. apply chain_one. eauto.
  - exists 0. left. constructor.
  - exists 1. right. apply chain_one. eauto.
Qed.
Print Assumptions C105_factor_condition.

(** thirteen blocks of one column: three chains of four blocks that meet in the last one *)
Definition by_b2c := seq 0 14.
Definition by_c2b := seq 0 13.
Definition by_Lip := [0; 2; 4; 6; 8; 10; 12; 14; 16; 18; 20; 22; 24; 25].
Definition by_Li := [0; 3; 1; 4; 2; 5; 3; 6; 4; 7; 5; 8; 6; 9; 7; 10; 8; 11; 9; 12; 10; 12; 11; 12; 12].
Example C105_case : blk_ok 13 by_b2c by_c2b by_Lip by_Li /\ successors_on_path (bedge 13 by_b2c by_c2b by_Lip by_Li) /\
  bedge 13 by_b2c by_c2b by_Lip by_Li 0 3 /\
  run_blocked [0%Z] 13 by_b2c by_c2b by_Lip by_Li 2 =
    Ok (2, ([0; 2; 3; 0; 0; 0; 0; 0; 0; 0; 0; 0; 0; 0], [0; 4; 6; 13; 0; 0; 0; 0; 0; 0; 0; 0; 0], [0; 3; 2; 5; 1; 4; 6; 9; 7; 10; 8; 11; 12])).
Proof.
  split; [apply blk_okb_ok; vm_compute; reflexivity|]. split.
  - apply C105_forest_condition. intros u v w (Hu & r & Hr & <-) (_ & r' & Hr' & <-).
    do 13 (destruct u as [|u]; [vm_compute in Hr, Hr'; replace r' with r by lia; reflexivity|]). lia.
  - split; [split; [lia|]; exists 1; vm_compute; split; [lia|reflexivity]|]. vm_compute. reflexivity.
Qed.

(** Without the condition on the paths the schedule can have a race: the renaming in the function leaves out the first of the
    parts that meet and lowers the number of parts although numbers above it are in use.  Six blocks of one column, 0 -> 5, 1 -> 4, 2 -> 4, 2 -> 5. *)
Definition bz_b2c := seq 0 7.
Definition bz_c2b := seq 0 6.
Definition bz_Lip := [0; 2; 4; 7; 8; 9; 10].
Definition bz_Li := [0; 5; 1; 4; 2; 4; 5; 3; 4; 5].
Theorem C105_any_blocks_refuted : ~ (forall nb b2c c2b Lip Li r, blk_ok nb b2c c2b Lip Li ->
  run_blocked [0%Z] nb b2c c2b Lip Li 2 = Ok r ->
  valid_schedule nb (bedge nb b2c c2b Lip Li) (fst r) (fst (fst (snd r))) (snd (fst (snd r))) (snd (snd r))).
Proof.
  intros H.
  assert (E : run_blocked [0%Z] 6 bz_b2c bz_c2b bz_Lip bz_Li 2 = Ok (1, ([0; 2; 0; 0; 0; 0; 0], [0; 3; 6; 0; 0; 0], [0; 2; 5; 1; 4; 3]))) by (vm_compute; reflexivity).
  destruct (H 6 bz_b2c bz_c2b bz_Lip bz_Li _ ltac:(apply blk_okb_ok; vm_compute; reflexivity) E) as (_ & _ & C). cbn [fst snd] in C.
  assert (HE : bedge 6 bz_b2c bz_c2b bz_Lip bz_Li 2 4) by (split; [lia|]; exists 5; vm_compute; split; [lia|reflexivity]).
  specialize (C 2 4 0 0 1 0 1 4 HE ltac:(lia) ltac:(lia)).
  assert (S1 : sched_at [0; 2; 0; 0; 0; 0; 0] [0; 3; 6; 0; 0; 0] [0; 2; 5; 1; 4; 3] 0 0 1 2) by (vm_compute; repeat split; lia).
  assert (S2 : sched_at [0; 2; 0; 0; 0; 0; 0] [0; 3; 6; 0; 0; 0] [0; 2; 5; 1; 4; 3] 0 1 4 4) by (vm_compute; repeat split; lia).
  specialize (C S1 S2). lia.
Qed.
Print Assumptions C105_any_blocks_refuted.

(** or end out of bounds, even with the harmless word: a part number reaches the number of parts *)
Theorem C105_any_blocks_total_refuted : ~ (forall nb b2c c2b Lip Li, blk_ok nb b2c c2b Lip Li -> (exists s t, bedge nb b2c c2b Lip Li s t) ->
  exists r, run_blocked [0%Z] nb b2c c2b Lip Li 4 = Ok r).
Proof.
  intros H. destruct (H 7 [0; 1; 2; 3; 4; 5; 6; 7] [0; 1; 2; 3; 4; 5; 6] [0; 2; 4; 6; 9; 10; 11; 12] [0; 4; 1; 5; 2; 6; 3; 4; 5; 4; 5; 6]) as (r & E).
  - apply blk_okb_ok. vm_compute. reflexivity.
  - exists 0, 4. split; [lia|]. exists 1. vm_compute. split; [lia|reflexivity].
  - vm_compute in E. discriminate.
Qed.
Print Assumptions C105_any_blocks_total_refuted.
