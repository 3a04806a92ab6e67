(** Properties C131 (computeStatistic), C132 (computeStatistic of the grouped solver), C133 (getPotentialGain and
    computeMetrics), C134 (computeCharacteristics), C135 (averWsize, consecutiveRatio). *)
From Coq Require Import ZifyBool ZifyNat Permutation.
From Verif Require Import Base Lib Lib2 Spec SpecMat M_Runtime P_Collect.
From Verif Require L_Sym L_Bfs.

(** the cost of part w of a schedule *)
Definition pcost (cost pp np : list nat) (w : nat) : nat := sum_r pp.[w] pp.[S w] (fun i => cost.[np.[i]]).
(** the costs of the parts of level l, and its total *)
Definition lcosts (cost lp pp np : list nat) (l : nat) : list nat := map (pcost cost pp np) (seq lp.[l] (lp.[S l] - lp.[l])).
Definition ltotal (cost lp pp np : list nat) (l : nat) : nat := list_sum (lcosts cost lp pp np l).
Definition zsum (n : nat) (f : nat -> Z) : Z := fold_right Z.add 0%Z (map f (seq 0 n)).

(** every node of the schedule has a cost *)
Definition has_costs (n : nat) (cost np : list nat) : Prop := forall k, k < n -> np.[k] < length cost.

Lemma zsum_S n f : zsum (S n) f = (zsum n f + f n)%Z.
Proof.
  unfold zsum. rewrite seq_S, map_app. cbn [Nat.add map]. generalize (map f (seq 0 n)). intros l. induction l as [|x l IH]; cbn [app fold_right]; lia.
Qed.

Lemma list_max_snoc l x : list_max (l ++ [x]) = Nat.max (list_max l) x.
Proof. rewrite list_max_app. cbn. lia. Qed.

Lemma list_min_snoc n l x : fold_right Nat.min n (l ++ [x]) = Nat.min (fold_right Nat.min n l) x.
Proof. induction l as [|y l IH]; cbn; [lia|]. rewrite IH. lia. Qed.

Lemma list_sum_snoc l x : list_sum (l ++ [x]) = list_sum l + x.
Proof. rewrite list_sum_app. cbn. lia. Qed.

Lemma seq_snoc a w : a <= w -> seq a (S w - a) = seq a (w - a) ++ [w].
Proof. intros. replace (S w - a) with (S (w - a)) by lia. rewrite seq_S. do 2 f_equal. lia. Qed.

Section Sched.
Variables (n nl : nat) (cost lp pp np : list nat).
Hypothesis SW : sched_wf n nl lp pp np.

Lemma lp_le l l' : l <= l' -> l' <= nl -> lp.[l] <= lp.[l'].
Proof. clear cost. intros. destruct SW as (_ & _ & H1 & _). apply (mono_le (aget lp) nl); auto. Qed.

Lemma pp_le w w' : w <= w' -> w' <= lp.[nl] -> pp.[w] <= pp.[w'].
Proof. clear cost. intros. destruct SW as (_ & _ & _ & _ & _ & H1 & _). apply (mono_le (aget pp) lp.[nl]); auto. Qed.

Lemma pp_le_n w : w <= lp.[nl] -> pp.[w] <= n.
Proof. clear cost. intros H. pose proof (pp_le w lp.[nl] H ltac:(lia)). destruct SW as (_ & _ & _ & _ & _ & _ & E & _). lia. Qed.

Lemma part_cost_ok w : has_costs n cost np -> w < lp.[nl] -> part_cost cost np pp.[w] pp.[S w] = Ok (pcost cost pp np w).
Proof.
  intros HC Hw. pose proof (pp_le w (S w) ltac:(lia) ltac:(lia)) as M. pose proof (pp_le_n (S w) ltac:(lia)). destruct SW as (_ & _ & _ & _ & _ & _ & _ & LN).
  assert (G : wp (part_cost cost np pp.[w] pp.[S w]) (fun c => c = pcost cost pp np w)).
  { unfold part_cost. apply (wp_for (fun i c => c = sum_r pp.[w] i (fun i => cost.[np.[i]]))); [lia|now rewrite sum_r_nil by lia| |auto].
    intros i c Hi ->. apply wp_bind. apply wp_rd; [lia|]. apply wp_bind. apply wp_rd; [apply HC; lia|]. apply wp_ret. rewrite sum_r_S by lia. reflexivity. }
  apply wp_ok in G. destruct G as (c & E & ->). exact E.
Qed.

Lemma level_stat_ok l : has_costs n cost np -> l < nl ->
  level_stat n cost lp pp np l = Ok (ltotal cost lp pp np l, list_max (lcosts cost lp pp np l), fold_right Nat.min n (lcosts cost lp pp np l)).
Proof.
  intros HC Hl. pose proof (lp_le l (S l) ltac:(lia) ltac:(lia)) as M. pose proof (lp_le (S l) nl ltac:(lia) ltac:(lia)) as M2.
  pose proof SW as (LL & _ & _ & LP & _).
  set (cs := fun w => map (pcost cost pp np) (seq lp.[l] (w - lp.[l]))).
  assert (G : wp (level_stat n cost lp pp np l) (fun r => r = (list_sum (cs lp.[S l]), list_max (cs lp.[S l]), fold_right Nat.min n (cs lp.[S l])))).
  { unfold level_stat. apply wp_bind. apply wp_rd; [lia|]. apply wp_bind. apply wp_rd; [lia|].
    apply (wp_for (fun w r => r = (list_sum (cs w), list_max (cs w), fold_right Nat.min n (cs w)))); [lia|unfold cs; now rewrite Nat.sub_diag| |auto].
    intros w r Hw ->. apply wp_bind. apply wp_rd; [lia|]. apply wp_bind. apply wp_rd; [lia|]. rewrite part_cost_ok by (auto; lia). cbn [bind]. apply wp_ret.
    assert (EC : cs (S w) = cs w ++ [pcost cost pp np w]) by (unfold cs; rewrite seq_snoc by lia; now rewrite map_app).
    rewrite EC, list_sum_snoc, list_max_snoc, list_min_snoc. f_equal; [f_equal|]; [destruct (Nat.ltb_spec (list_max (cs w)) (pcost cost pp np w)); lia|].
    destruct (Nat.ltb_spec (pcost cost pp np w) (fold_right Nat.min n (cs w))); lia. }
  apply wp_ok in G. destruct G as (c & E & ->). exact E.
Qed.
End Sched.

Lemma count_parts_ok pp : 0 < length pp -> count_parts pp = Ok (length (filter (fun w => negb (pp.[S w] =? pp.[w])) (seq 0 (length pp - 1)))).
Proof.
  intros H0. assert (G : wp (count_parts pp) (fun c => c = length (filter (fun w => negb (pp.[S w] =? pp.[w])) (seq 0 (length pp - 1))))).
  { unfold count_parts. destruct (Nat.eqb_spec (length pp) 0); [lia|].
    apply (wp_for (fun i c => c = length (filter (fun w => negb (pp.[S w] =? pp.[w])) (seq 0 i)))); [lia|reflexivity| |auto].
    intros i c Hi ->. apply wp_bind. apply wp_rd; [lia|]. apply wp_bind. apply wp_rd; [lia|]. apply wp_ret. rewrite seq_S, filter_app, app_length. cbn [filter Nat.add].
    destruct (_ =? _); cbn; lia. }
  apply wp_ok in G. destruct G as (c & E & ->). exact E.
Qed.

(** * C131 *)

(** computeStatistic returns the number of non-empty parts and, for max_diff, the average of the level spreads weighted with
    the costs of the levels: but the smallest cost in a level is cut off at n. *)
Theorem C131_statistic : forall n nl cost lp pp np, sched_wf n nl lp pp np -> has_costs n cost np ->
  computeStatistic n nl cost lp pp np =
    Ok (length (filter (fun w => negb (pp.[S w] =? pp.[w])) (seq 0 (length pp - 1))),
        zsum nl (fun l => Z.of_nat (ltotal cost lp pp np l) * (Z.of_nat (list_max (lcosts cost lp pp np l)) - Z.of_nat (fold_right Nat.min n (lcosts cost lp pp np l))))%Z,
        sum_r 0 nl (ltotal cost lp pp np)).
Proof.
  intros n nl cost lp pp np SW HC. unfold computeStatistic. rewrite count_parts_ok by (destruct SW as (_ & _ & _ & H & _); lia). cbn [bind].
  set (f := (fun l => Z.of_nat (ltotal cost lp pp np l) * (Z.of_nat (list_max (lcosts cost lp pp np l)) - Z.of_nat (fold_right Nat.min n (lcosts cost lp pp np l))))%Z). match goal with |- bind ?x _ = _ => assert (G : wp x (fun r => r = (zsum nl f, sum_r 0 nl (ltotal cost lp pp np)))) end.
  { apply (wp_for (fun l r => r = (zsum l f, sum_r 0 l (ltotal cost lp pp np)))); [lia|reflexivity| |auto].
    intros l r Hl ->. rewrite (level_stat_ok n nl cost lp pp np SW) by (auto; lia). cbn [bind]. apply wp_ret. rewrite zsum_S, sum_r_S by lia. reflexivity. }
  apply wp_ok in G. destruct G as (r & E & ->). rewrite E. reflexivity.
Qed.
Print Assumptions C131_statistic.

(** If some part of the level costs at most n, the difference is the true spread. *)
Theorem C131_true_spread : forall n cs, (exists c, In c cs /\ c <= n) ->
  (exists c, In c cs /\ c = fold_right Nat.min n cs) /\ (forall c, In c cs -> fold_right Nat.min n cs <= c) /\
  (exists c, In c cs /\ c = list_max cs) /\ (forall c, In c cs -> c <= list_max cs).
Proof.
  intros n cs (c0 & H0 & H1). assert (LM : forall c, In c cs -> fold_right Nat.min n cs <= c).
  { clear. induction cs as [|x cs IH]; [easy|]. cbn. intros c [->|H]; [lia|]. specialize (IH c H). lia. }
  assert (LX : forall c, In c cs -> c <= list_max cs).
  { clear. induction cs as [|x cs IH]; [easy|]. cbn [list_max fold_right]. intros c [->|H]; [unfold list_max; cbn; lia|]. specialize (IH c H). unfold list_max in *. cbn. lia. }
  splits; auto.
  - assert (fold_right Nat.min n cs = n \/ exists c, In c cs /\ c = fold_right Nat.min n cs) as [E|E].
    { clear. induction cs as [|x cs IH]; [now left|]. cbn. destruct (Nat.min_spec x (fold_right Nat.min n cs)) as [(A & ->)|(A & ->)]; [right; exists x; auto|].
      destruct IH as [IH|(c & I1 & I2)]; [left; auto|right; exists c; auto]. }
    + exists c0. split; auto. specialize (LM _ H0). lia.
    + exact E.
  - destruct cs as [|x cs]; [easy|]. clear. revert x. induction cs as [|y cs IH]; intros x; [exists x; cbn; split; [auto|lia]|].
    destruct (IH y) as (c & I1 & I2). unfold list_max in *. cbn [fold_right] in *.
    destruct (Nat.max_spec x (Nat.max y (fold_right Nat.max 0 cs))) as [(_ & ->)|(_ & ->)]; [exists c; split; [now right|lia]|exists x; split; [now left|auto]].
Qed.
Print Assumptions C131_true_spread.

(** The total weight is the sum of all node costs if every node is scheduled once. *)
Lemma perm_of_complete n np : n <= length np -> sched_complete n np -> Permutation (map (aget np) (seq 0 n)) (seq 0 n).
Proof.
  intros LN (C1 & C2). apply NoDup_Permutation_bis; [|rewrite !map_length, !seq_length; lia|].
  - apply L_Sym.nodup_map_inj; [apply seq_NoDup|]. intros x y Hx Hy. apply in_seq in Hx, Hy. apply C2; lia.
  - intros x Hx. apply in_map_iff in Hx. destruct Hx as (k & <- & Hk). apply in_seq in Hk. apply in_seq. specialize (C1 k ltac:(lia)). lia.
Qed.


Lemma sum_complete n np f : n <= length np -> sched_complete n np -> sum_r 0 n (fun k => f np.[k]) = sum_r 0 n f.
Proof.
  intros LN C. unfold sum_r. rewrite Nat.sub_0_r. rewrite <- (map_map (aget np) f). apply L_Bfs.list_sum_perm, Permutation_map. now apply perm_of_complete.
Qed.

(** a sum over the parts of consecutive levels is a sum over the positions *)
Lemma sum_parts (pp : list nat) f a b : a <= b -> (forall w, a <= w < b -> pp.[w] <= pp.[S w]) ->
  pp.[a] <= pp.[b] /\ sum_r a b (fun w => sum_r pp.[w] pp.[S w] f) = sum_r pp.[a] pp.[b] f.
Proof.
  intros Hab M. revert M. induction Hab as [|b Hab IH]; intros M; [rewrite !sum_r_nil by lia; auto|].
  destruct IH as (I1 & I2); [intros; apply M; lia|]. specialize (M b ltac:(lia)). split; [lia|]. rewrite sum_r_S by lia. rewrite I2. symmetry. now apply sum_r_split.
Qed.

Lemma ltotal_sum n nl cost lp pp np l : sched_wf n nl lp pp np -> l < nl ->
  ltotal cost lp pp np l = sum_r pp.[lp.[l]] pp.[lp.[S l]] (fun i => cost.[np.[i]]).
Proof.
  intros SW Hl. unfold ltotal, lcosts. fold (sum_r lp.[l] lp.[S l] (pcost cost pp np)). unfold pcost.
  pose proof (lp_le n nl lp pp np SW l (S l) ltac:(lia) ltac:(lia)). pose proof (lp_le n nl lp pp np SW (S l) nl ltac:(lia) ltac:(lia)).
  apply (sum_parts pp (fun i => cost.[np.[i]])); [lia|]. intros w Hw. apply (pp_le n nl lp pp np SW); lia.
Qed.

Lemma total_sum n nl cost lp pp np l : sched_wf n nl lp pp np -> l <= nl -> sum_r 0 l (ltotal cost lp pp np) = sum_r 0 pp.[lp.[l]] (fun i => cost.[np.[i]]).
Proof.
  intros SW. pose proof SW as (_ & L0 & _ & _ & P0 & _). induction l as [|l IH]; intros Hl; [rewrite L0, P0, !sum_r_nil by lia; auto|].
  rewrite sum_r_S by lia. rewrite IH, (ltotal_sum n nl) by (auto; lia). symmetry. apply sum_r_split; [lia|].
  pose proof (lp_le n nl lp pp np SW l (S l) ltac:(lia) ltac:(lia)). pose proof (lp_le n nl lp pp np SW (S l) nl ltac:(lia) ltac:(lia)).
  apply (pp_le n nl lp pp np SW); lia.
Qed.

Theorem C131_total_weight : forall n nl cost lp pp np, sched_wf n nl lp pp np -> sched_complete n np ->
  sum_r 0 nl (ltotal cost lp pp np) = sum_r 0 n (aget cost).
Proof.
  intros n nl cost lp pp np SW SC. rewrite (total_sum n nl) by auto. pose proof SW as (_ & _ & _ & _ & _ & _ & -> & LN).
  now apply (sum_complete n np (aget cost)).
Qed.
Print Assumptions C131_total_weight.

(** One part only, so there is no imbalance at all, yet max_diff is (6 - 3): the cost of the part exceeds n. *)
Theorem C131_single_part_refuted : ~ (forall n nl cost lp pp np num den part_no, sched_wf n nl lp pp np -> sched_complete n np -> has_costs n cost np ->
  (forall l, l < nl -> lp.[S l] = S lp.[l]) -> computeStatistic n nl cost lp pp np = Ok (part_no, num, den) -> num = 0%Z).
Proof.
  intros H. specialize (H 3 1 [1;2;3] [0;1] [0;3] [0;1;2] 18%Z 6 1). assert (18 = 0)%Z; [|lia]. apply H; [| | | |vm_compute; reflexivity].
  - unfold sched_wf. splits; cbn; try lia; intros l Hl; replace l with 0 by lia; cbn; lia.
  - split; [intros k Hk; do 3 (destruct k; [cbn; lia|]); lia|]. intros k k' Hk Hk'. do 3 (destruct k as [|k]; [do 3 (destruct k' as [|k']; [cbn; lia|]); lia|]). lia.
  - intros k Hk. do 3 (destruct k; [cbn; lia|]). lia.
  - intros l Hl. replace l with 0 by lia. reflexivity.
Qed.
Print Assumptions C131_single_part_refuted.

Lemma ex_sched : sched_wf 5 2 [0;2;3] [0;2;3;5] [0;2;1;3;4] /\ sched_complete 5 [0;2;1;3;4].
Proof.
  split.
  - unfold sched_wf. splits; cbn; try lia; intros l Hl; do 3 (destruct l; [cbn; lia|]); lia.
  - split; [intros k Hk; do 5 (destruct k; [cbn; lia|]); lia|]. intros k k' Hk Hk'. do 5 (destruct k as [|k]; [do 5 (destruct k' as [|k']; [cbn; lia|]); lia|]). lia.
Qed.

Example C131_nonvacuous : sched_wf 5 2 [0;2;3] [0;2;3;5] [0;2;1;3;4] /\ sched_complete 5 [0;2;1;3;4] /\ has_costs 5 [1;1;2;2;2] [0;2;1;3;4] /\
  computeStatistic 5 2 [1;1;2;2;2] [0;2;3] [0;2;3;5] [0;2;1;3;4] = Ok (3, 8%Z, 8).
Proof. splits; try apply ex_sched; [|vm_compute; reflexivity]. intros k Hk. do 5 (destruct k; [cbn; lia|]). lia. Qed.
