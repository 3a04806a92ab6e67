(** Properties C132 - C135, see P_Runtime. *)
From Coq Require Import ZifyBool ZifyNat Permutation QArith.
From Verif Require Import Base Lib Lib2 Spec SpecMat M_Runtime P_Collect P_Runtime.
From Verif Require L_Sym L_Bfs.
Open Scope nat_scope.

(** * C132 *)

(** With fewer costs than nodes computeStatistic reads behind the vector of the costs, for every schedule. *)
Theorem C132_out_of_bounds : forall n nl cost lp pp np, sched_wf n nl lp pp np -> sched_complete n np -> length cost < n ->
  computeStatistic n nl cost lp pp np = Err OOB.
Proof.
  intros n nl cost lp pp np SW SC HL. pose proof SW as (LL & L0 & LM & LP & P0 & PM & PN & LN).
  assert (G : oob_or (computeStatistic n nl cost lp pp np) (fun _ => False)).
  2:{ destruct (computeStatistic n nl cost lp pp np); simpl in G; [tauto|congruence]. }
  unfold computeStatistic. rewrite count_parts_ok by lia. cbn [bind]. apply oo_bind.
  apply (oo_for (fun l _ => forall k, k < pp.[lp.[l]] -> np.[k] < length cost)); [lia|rewrite L0, P0; lia| |].
  - intros l [num den] Hl IL. unfold level_stat. pose proof (lp_le n nl lp pp np SW l (S l) ltac:(lia) ltac:(lia)).
    pose proof (lp_le n nl lp pp np SW (S l) nl ltac:(lia) ltac:(lia)).
    apply oo_bind. apply oo_bind. oo1. intros _. apply oo_bind. oo1. intros _.
    apply (oo_for (fun w _ => forall k, k < pp.[w] -> np.[k] < length cost)); [lia|exact IL| |].
    + intros w [[t mx] mn] Hw IW. oo1. oo1. intros _. oo1. oo1. intros _. oo1. unfold part_cost.
      pose proof (pp_le n nl lp pp np SW w (S w) ltac:(lia) ltac:(lia)).
      apply (oo_for (fun i _ => forall k, k < i -> np.[k] < length cost)); [lia|exact IW| |].
      * intros i c Hi II. oo1. oo1. intros _. oo1. oo1. intros HB. oo1. intros k Hk. destruct (Nat.eq_dec k i) as [->|]; [exact HB|apply II; lia].
      * intros c II. oo1. exact II.
    + intros [[t mx] mn] IW. oo1. exact IW.
  - intros [num den] IL. rewrite PN in IL. simpl.
    assert (incl (map (aget np) (seq 0 n)) (seq 0 (length cost))).
    { intros x Hx. apply in_map_iff in Hx. destruct Hx as (k & <- & Hk). apply in_seq in Hk. apply in_seq. specialize (IL k ltac:(lia)). lia. }
    apply NoDup_incl_length in H; [rewrite map_length, !seq_length in H; lia|].
    apply L_Sym.nodup_map_inj; [apply seq_NoDup|]. intros x y Hx Hy. apply in_seq in Hx, Hy. apply SC; lia.
Qed.
Print Assumptions C132_out_of_bounds.

Example C132_nonvacuous : sched_wf 5 2 [0;2;3] [0;2;3;5] [0;2;1;3;4] /\ sched_complete 5 [0;2;1;3;4] /\
  computeStatistic 5 2 [3;1;4] [0;2;3] [0;2;3;5] [0;2;1;3;4] = Err OOB.
Proof. splits; try apply ex_sched. vm_compute. reflexivity. Qed.

(** * C133 *)

(** the number of non-empty parts of level l *)
Definition lparts (lp pp : list nat) (l : nat) : nat := length (filter (fun w => negb (pp.[S w] =? pp.[w])) (seq lp.[l] (lp.[S l] - lp.[l]))).

Lemma level_metrics_ok n nl cost lp pp np l : sched_wf n nl lp pp np -> has_costs n cost np -> l < nl ->
  level_metrics cost lp pp np l = Ok (lparts lp pp l, pp.[lp.[S l]] - pp.[lp.[l]], ltotal cost lp pp np l, list_max (lcosts cost lp pp np l)).
Proof.
  intros SW HC Hl. pose proof (lp_le n nl lp pp np SW l (S l) ltac:(lia) ltac:(lia)) as M. pose proof (lp_le n nl lp pp np SW (S l) nl ltac:(lia) ltac:(lia)) as M2.
  pose proof SW as (LL & _ & _ & LP & _ & _ & _ & LN).
  set (cs := fun w => map (pcost cost pp np) (seq lp.[l] (w - lp.[l]))).
  set (ne := fun w => length (filter (fun w => negb (pp.[S w] =? pp.[w])) (seq lp.[l] (w - lp.[l])))).
  assert (G : wp (level_metrics cost lp pp np l) (fun r => r = (ne lp.[S l], pp.[lp.[S l]] - pp.[lp.[l]], list_sum (cs lp.[S l]), list_max (cs lp.[S l])))).
  { unfold level_metrics. apply wp_bind. apply wp_rd; [lia|]. apply wp_bind. apply wp_rd; [lia|].
    apply (wp_for (fun w r => r = (ne w, pp.[w] - pp.[lp.[l]], list_sum (cs w), list_max (cs w)))); [lia|unfold cs, ne; now rewrite !Nat.sub_diag| |auto].
    intros w r Hw ->. pose proof (pp_le n nl lp pp np SW lp.[l] w ltac:(lia) ltac:(lia)). pose proof (pp_le n nl lp pp np SW w (S w) ltac:(lia) ltac:(lia)).
    pose proof (pp_le_n n nl lp pp np SW (S w) ltac:(lia)). apply wp_bind. apply wp_rd; [lia|]. apply wp_bind. apply wp_rd; [lia|]. apply wp_bind.
    apply (wp_for (fun i r => r = (i - pp.[lp.[l]], list_sum (cs w) + sum_r pp.[w] i (fun i => cost.[np.[i]]), sum_r pp.[w] i (fun i => cost.[np.[i]])))); [lia| | |].
    - rewrite sum_r_nil by lia. rewrite Nat.add_0_r. reflexivity.
    - intros i r Hi ->. apply wp_bind. apply wp_rd; [lia|]. apply wp_bind. apply wp_rd; [apply HC; lia|]. apply wp_ret. rewrite sum_r_S by lia.
      replace (S i - pp.[lp.[l]]) with (S (i - pp.[lp.[l]])) by lia. rewrite Nat.add_assoc. reflexivity.
    - intros r ->. apply wp_ret. fold (pcost cost pp np w).
      assert (EC : cs (S w) = cs w ++ [pcost cost pp np w]) by (unfold cs; rewrite seq_snoc by lia; now rewrite map_app).
      assert (EN : ne (S w) = if pp.[S w] =? pp.[w] then ne w else S (ne w)).
      { unfold ne. rewrite seq_snoc by lia. rewrite filter_app, app_length. cbn [filter]. destruct (_ =? _); cbn; lia. }
      rewrite EC, EN, list_sum_snoc, list_max_snoc. f_equal. destruct (Nat.ltb_spec (list_max (cs w)) (pcost cost pp np w)); lia. }
  apply wp_ok in G. destruct G as (c & E & ->). exact E.
Qed.

(** getPotentialGain: the total is the sum of all costs; the critical path is the sum over the levels of the largest part. *)
Theorem C133_potential_gain : forall n nl cost lp pp np, sched_wf n nl lp pp np -> sched_complete n np -> n <= length cost ->
  getPotentialGain nl cost lp pp np = Ok (sum_r 0 n (aget cost), sum_r 0 nl (fun l => list_max (lcosts cost lp pp np l))).
Proof.
  intros n nl cost lp pp np SW SC HL. assert (HC : has_costs n cost np) by (intros k Hk; destruct SC as (S1 & _); specialize (S1 k Hk); lia).
  rewrite <- (C131_total_weight n nl cost lp pp np) by auto.
  match goal with |- ?x = Ok ?y => assert (G : wp x (fun r => r = y)) end.
  { unfold getPotentialGain. apply (wp_for (fun l r => r = (sum_r 0 l (ltotal cost lp pp np), sum_r 0 l (fun l => list_max (lcosts cost lp pp np l))))); [lia|reflexivity| |auto].
    intros l r Hl ->. rewrite (level_metrics_ok n nl) by (auto; lia). cbn [bind]. apply wp_ret. now rewrite !sum_r_S by lia. }
  apply wp_ok in G. destruct G as (r & -> & ->). reflexivity.
Qed.
Print Assumptions C133_potential_gain.

Lemma sum_le_max f (g : nat -> bool) s : (forall w, In w s -> g w = false -> f w = 0) -> list_sum (map f s) <= length (filter g s) * list_max (map f s).
Proof.
  induction s as [|x s IH]; intros H; [cbn; lia|]. specialize (IH (fun w Hw => H w (or_intror Hw))). cbn [map filter].
  change (list_sum (f x :: map f s)) with (f x + list_sum (map f s)). change (list_max (f x :: map f s)) with (Nat.max (f x) (list_max (map f s))).
  destruct (g x) eqn:E; [cbn [length]; nia|]. rewrite (H x (or_introl eq_refl) E). cbn. nia.
Qed.

Lemma max_le_sum l : list_max l <= list_sum l.
Proof. induction l as [|x l IH]; [cbn; lia|]. change (list_sum (x :: l)) with (x + list_sum l). change (list_max (x :: l)) with (Nat.max x (list_max l)). lia. Qed.

Lemma sum_r_le a b f g : (forall i, a <= i < b -> f i <= g i) -> sum_r a b f <= sum_r a b g.
Proof.
  intros H. unfold sum_r. assert (K : forall s, (forall i, In i s -> f i <= g i) -> list_sum (map f s) <= list_sum (map g s)).
  { induction s as [|x s IH]; intros HS; [cbn; lia|]. cbn [map]. change (list_sum (f x :: map f s)) with (f x + list_sum (map f s)). change (list_sum (g x :: map g s)) with (g x + list_sum (map g s)).
    specialize (HS x (or_introl eq_refl)) as H1. specialize (IH (fun i Hi => HS i (or_intror Hi))). lia. }
  apply K. intros i Hi. apply in_seq in Hi. apply H. lia.
Qed.

Lemma sum_r_scale a b c f : sum_r a b (fun i => c * f i) = c * sum_r a b f.
Proof.
  unfold sum_r. generalize (seq a (b - a)). intros s. induction s as [|x s IH]; [cbn; lia|]. cbn [map].
  change (list_sum (c * f x :: map (fun i => c * f i) s)) with (c * f x + list_sum (map (fun i => c * f i) s)). change (list_sum (f x :: map f s)) with (f x + list_sum (map f s)). lia.
Qed.

(** the gain 1 - (Total_cost / nthreads) / critical_path *)
Definition gain (threads total crit : nat) : Q := (1 - (inject_Z (Z.of_nat total) / inject_Z (Z.of_nat threads)) / inject_Z (Z.of_nat crit))%Q.

(** The critical path never exceeds the total.  If no level has more non-empty parts than threads the gain lies in [0, 1). *)
Theorem C133_gain_bounds : forall n nl cost lp pp np threads total crit, sched_wf n nl lp pp np -> sched_complete n np -> n <= length cost ->
  getPotentialGain nl cost lp pp np = Ok (total, crit) ->
  crit <= total /\ (0 < total -> 0 < crit) /\
  ((forall l, l < nl -> lparts lp pp l <= threads) -> 0 < total -> (0 <= gain threads total crit /\ gain threads total crit < 1)%Q).
Proof.
  intros n nl cost lp pp np threads total crit SW SC HL E. rewrite (C133_potential_gain n) in E by auto. injection E as E1 E2.
  rewrite <- (C131_total_weight n nl cost lp pp np) in E1 by auto.
  assert (B : forall l, l < nl -> ltotal cost lp pp np l <= lparts lp pp l * list_max (lcosts cost lp pp np l)).
  { intros l Hl. unfold ltotal, lcosts, lparts. apply sum_le_max. intros w _ Hw. unfold pcost. rewrite sum_r_nil; lia. }
  assert (H1 : crit <= total). { subst. apply sum_r_le. intros l _. apply max_le_sum. }
  assert (H2 : 0 < total -> 0 < crit).
  { intros HP. destruct crit as [|c]; [|lia]. exfalso. assert (total <= 0); [|lia]. rewrite <- E1.
    transitivity (sum_r 0 nl (fun _ => 0 * 0)); [|now rewrite (sum_r_scale 0 nl 0 (fun _ => 0))]. apply sum_r_le. intros l Hl. specialize (B l ltac:(lia)).
    assert (list_max (lcosts cost lp pp np l) <= 0); [|nia]. rewrite <- E2. rewrite (sum_r_split 0 l nl), (sum_r_first l) by lia. lia. }
  splits; auto. intros HT HP. assert (H3 : total <= threads * crit).
  { subst. rewrite <- sum_r_scale. apply sum_r_le. intros l Hl. specialize (B l ltac:(lia)). specialize (HT l ltac:(lia)). nia. }
  assert (T0 : 0 < threads) by nia. specialize (H2 HP).
  assert (QT : (0 < inject_Z (Z.of_nat threads))%Q) by (rewrite <- (Zlt_Qlt 0); lia). assert (QC : (0 < inject_Z (Z.of_nat crit))%Q) by (rewrite <- (Zlt_Qlt 0); lia).
  assert (QP : (0 < inject_Z (Z.of_nat total))%Q) by (rewrite <- (Zlt_Qlt 0); lia).
  unfold gain. split.
  - apply -> Qle_minus_iff. apply Qle_shift_div_r; auto. apply Qle_shift_div_r; auto. rewrite Qmult_1_l, <- inject_Z_mult, <- Zle_Qle. lia.
  - assert (K : (0 < inject_Z (Z.of_nat total) / inject_Z (Z.of_nat threads) / inject_Z (Z.of_nat crit))%Q).
    { apply Qlt_shift_div_l; auto. rewrite Qmult_0_l. apply Qlt_shift_div_l; auto. }
    apply Qlt_minus_iff. setoid_replace (1 + - (1 - inject_Z (Z.of_nat total) / inject_Z (Z.of_nat threads) / inject_Z (Z.of_nat crit)))%Q
      with (inject_Z (Z.of_nat total) / inject_Z (Z.of_nat threads) / inject_Z (Z.of_nat crit))%Q by ring. exact K.
Qed.
Print Assumptions C133_gain_bounds.

(** With more parts than threads the gain can be negative: three parts of cost 1 on two threads. *)
Theorem C133_negative_refuted : ~ (forall n nl cost lp pp np threads total crit, sched_wf n nl lp pp np -> sched_complete n np -> n <= length cost -> 0 < threads -> 0 < total ->
  getPotentialGain nl cost lp pp np = Ok (total, crit) -> (0 <= gain threads total crit)%Q).
Proof.
  intros H. specialize (H 3 1 [1;1;1] [0;3] [0;1;2;3] [0;1;2] 2 3 1). assert (0 <= gain 2 3 1)%Q as K; [|revert K; unfold gain, Qle; cbn; lia]. apply H; cbn [length]; try lia; [| |vm_compute; reflexivity].
  - unfold sched_wf. splits; cbn; try lia; intros l Hl; do 3 (destruct l as [|l]; [cbn; lia|]); lia.
  - split; [intros k Hk; do 3 (destruct k; [cbn; lia|]); lia|]. intros k k' Hk Hk'. do 3 (destruct k as [|k]; [do 3 (destruct k' as [|k']; [cbn; lia|]); lia|]). lia.
Qed.
Print Assumptions C133_negative_refuted.

(** computeMetrics: numbers of parts weighted with the costs and sizes of the levels, on top of the values passed in. *)
Theorem C133_metrics : forall n nl cost lp pp np cap0 wap0, sched_wf n nl lp pp np -> sched_complete n np -> n <= length cost ->
  computeMetrics nl cost lp pp np cap0 wap0 =
    Ok (sum_r 0 nl (lparts lp pp), sum_r 0 n (aget cost), cap0 + sum_r 0 nl (fun l => lparts lp pp l * ltotal cost lp pp np l),
        wap0 + sum_r 0 nl (fun l => lparts lp pp l * (pp.[lp.[S l]] - pp.[lp.[l]]))).
Proof.
  intros n nl cost lp pp np cap0 wap0 SW SC HL. assert (HC : has_costs n cost np) by (intros k Hk; destruct SC as (S1 & _); specialize (S1 k Hk); lia).
  rewrite <- (C131_total_weight n nl cost lp pp np) by auto.
  match goal with |- ?x = Ok ?y => assert (G : wp x (fun r => r = y)) end.
  { unfold computeMetrics. apply (wp_for (fun l r => r = (sum_r 0 l (lparts lp pp), sum_r 0 l (ltotal cost lp pp np), cap0 + sum_r 0 l (fun l => lparts lp pp l * ltotal cost lp pp np l),
        wap0 + sum_r 0 l (fun l => lparts lp pp l * (pp.[lp.[S l]] - pp.[lp.[l]]))))); [lia|now rewrite !sum_r_nil, !Nat.add_0_r by lia| |auto].
    intros l r Hl ->. rewrite (level_metrics_ok n nl) by (auto; lia). cbn [bind]. apply wp_ret. rewrite !sum_r_S by lia. now rewrite !Nat.add_assoc. }
  apply wp_ok in G. destruct G as (r & -> & ->). reflexivity.
Qed.
Print Assumptions C133_metrics.

Example C133_nonvacuous : sched_wf 5 2 [0;2;3] [0;2;3;5] [0;2;1;3;4] /\ sched_complete 5 [0;2;1;3;4] /\ (forall l, l < 2 -> lparts [0;2;3] [0;2;3;5] l <= 2) /\
  getPotentialGain 2 [1;1;2;2;2] [0;2;3] [0;2;3;5] [0;2;1;3;4] = Ok (8, 7) /\
  computeMetrics 2 [1;1;2;2;2] [0;2;3] [0;2;3;5] [0;2;1;3;4] 0 0 = Ok (3, 8, 12, 8).
Proof. splits; try apply ex_sched; [|vm_compute; reflexivity..]. intros l Hl. do 2 (destruct l as [|l]; [vm_compute; lia|]). lia. Qed.

(** * C134 *)

Definition sizes (lp pp : list nat) (l : nat) : list nat := map (fun w => pp.[S w] - pp.[w]) (seq lp.[l] (lp.[S l] - lp.[l])).
Definition lsize (lp pp : list nat) (l : nat) : nat := pp.[lp.[S l]] - pp.[lp.[l]].

(** computeCharacteristics: the share of the largest part in the first three levels, as far as they exist; the assertion holds
    and the average is at most 1. *)
Theorem C134_characteristics : forall n nl lp pp np, sched_wf n nl lp pp np ->
  let share l := if l <? nl then Some (list_max (sizes lp pp l), lsize lp pp l) else None in
  computeCharacteristics nl lp pp = Ok (share 0, share 1, share 2, sum_r 0 nl (fun l => list_max (sizes lp pp l)), n) /\
  sum_r 0 nl (fun l => list_max (sizes lp pp l)) <= n.
Proof.
  intros n nl lp pp np SW. cbv zeta. pose proof SW as (LL & L0 & _ & LP & P0 & PM & PN & _).
  assert (LS : forall l, l < nl -> list_sum (sizes lp pp l) = lsize lp pp l).
  { intros l Hl. pose proof (lp_le n nl lp pp np SW l (S l) ltac:(lia) ltac:(lia)). pose proof (lp_le n nl lp pp np SW (S l) nl ltac:(lia) ltac:(lia)).
    unfold sizes, lsize. fold (sum_r lp.[l] lp.[S l] (fun w => pp.[S w] - pp.[w])).
    assert (K : forall b, lp.[l] <= b <= lp.[S l] -> sum_r lp.[l] b (fun w => pp.[S w] - pp.[w]) = pp.[b] - pp.[lp.[l]]).
    { intros b Hb. induction b as [|b IH]; [rewrite sum_r_nil by lia; replace lp.[l] with 0 by lia; lia|]. destruct (Nat.eq_dec (S b) lp.[l]) as [Eb|]; [rewrite Eb, sum_r_nil; lia|].
      rewrite sum_r_S by lia. rewrite IH by lia. pose proof (pp_le n nl lp pp np SW lp.[l] b ltac:(lia) ltac:(lia)). pose proof (pp_le n nl lp pp np SW b (S b) ltac:(lia) ltac:(lia)). lia. }
    apply K. lia. }
  assert (TS : forall l, l <= nl -> sum_r 0 l (lsize lp pp) = pp.[lp.[l]]).
  { induction l as [|l IH]; intros Hl; [rewrite L0, P0; reflexivity|]. rewrite sum_r_S, IH by lia. unfold lsize.
    pose proof (lp_le n nl lp pp np SW l (S l) ltac:(lia) ltac:(lia)). pose proof (lp_le n nl lp pp np SW (S l) nl ltac:(lia) ltac:(lia)).
    pose proof (pp_le n nl lp pp np SW lp.[l] lp.[S l] ltac:(lia) ltac:(lia)). lia. }
  split.
  - set (sh := fun c l => if l <? c then Some (list_max (sizes lp pp l), lsize lp pp l) else None).
    match goal with |- ?x = Ok ?y => assert (G : wp x (fun r => r = y)) end.
    { unfold computeCharacteristics.
      apply (wp_for (fun l r => r = (sh l 0, sh l 1, sh l 2, sum_r 0 l (fun l => list_max (sizes lp pp l)), sum_r 0 l (lsize lp pp)))); [lia|reflexivity| |].
      - intros l r Hl ->. apply wp_bind. apply wp_rd; [lia|]. apply wp_bind. apply wp_rd; [lia|]. apply wp_bind.
        pose proof (lp_le n nl lp pp np SW l (S l) ltac:(lia) ltac:(lia)). pose proof (lp_le n nl lp pp np SW (S l) nl ltac:(lia) ltac:(lia)).
        set (cs := fun w => map (fun w => pp.[S w] - pp.[w]) (seq lp.[l] (w - lp.[l]))).
        apply (wp_for (fun w r => r = (list_sum (cs w), list_max (cs w)))); [lia|unfold cs; now rewrite Nat.sub_diag| |].
        + intros w r Hw ->. apply wp_bind. apply wp_rd; [lia|]. apply wp_bind. apply wp_rd; [lia|]. apply wp_ret.
          assert (EC : cs (S w) = cs w ++ [pp.[S w] - pp.[w]]) by (unfold cs; rewrite seq_snoc by lia; now rewrite map_app).
          rewrite EC, list_sum_snoc, list_max_snoc. f_equal. destruct (Nat.ltb_spec (list_max (cs w)) (pp.[S w] - pp.[w])); lia.
        + intros r ->. apply wp_ret. rewrite !sum_r_S by lia. change (cs lp.[S l]) with (sizes lp pp l). rewrite LS by lia.
          assert (SS : forall c, sh (S l) c = if l =? c then Some (list_max (sizes lp pp l), lsize lp pp l) else sh l c).
          { intros c. unfold sh. destruct (Nat.eqb_spec l c) as [->|]; [now rewrite (proj2 (Nat.ltb_lt c (S c))) by lia|].
            destruct (Nat.ltb_spec c (S l)), (Nat.ltb_spec c l); auto; lia. }
          now rewrite !SS.
      - intros r ->. rewrite TS, PN by lia. reflexivity. }
    apply wp_ok in G. destruct G as (r & -> & ->). reflexivity.
  - transitivity (sum_r 0 nl (lsize lp pp)); [|rewrite TS, PN; lia]. apply sum_r_le. intros l Hl. rewrite <- LS by lia. apply max_le_sum.
Qed.
Print Assumptions C134_characteristics.

Example C134_nonvacuous : sched_wf 5 2 [0;2;3] [0;2;3;5] [0;2;1;3;4] /\
  computeCharacteristics 2 [0;2;3] [0;2;3;5] = Ok (Some (2, 3), Some (2, 2), None, 4, 5).
Proof. split; [apply ex_sched|vm_compute; reflexivity]. Qed.

(** * C135 *)

(** averWsize is the number of entries of the matrix over the number of parts, whatever the schedule. *)
Theorem C135_average_size : forall n nl Rp lp pp np, sched_wf n nl lp pp np -> sched_complete n np -> n < length Rp -> Rp.[0] = 0 ->
  (forall i, i < n -> Rp.[i] <= Rp.[S i]) -> averWsize nl Rp lp pp np = Ok (Rp.[n], lp.[nl]).
Proof.
  intros n nl Rp lp pp np SW SC HR R0 RM. pose proof SW as (LL & L0 & _ & LP & P0 & PM & PN & LN).
  set (f := fun i => Rp.[S np.[i]] - Rp.[np.[i]]).
  assert (E : sum_r 0 n f = Rp.[n]).
  { unfold f. rewrite (sum_complete n np (fun v => Rp.[S v] - Rp.[v])) by auto.
    assert (K : forall m, m <= n -> sum_r 0 m (fun v => Rp.[S v] - Rp.[v]) = Rp.[m] /\ Rp.[0] <= Rp.[m]).
    { induction m as [|m IH]; intros Hm; [rewrite R0; split; auto|]. rewrite sum_r_S by lia. destruct (IH ltac:(lia)) as (-> & ?). specialize (RM m ltac:(lia)). lia. }
    apply K. lia. }
  match goal with |- ?x = Ok ?y => assert (G : wp x (fun r => r = y)) end.
  { unfold averWsize. apply wp_bind. apply wp_rd; [lia|]. apply wp_bind. apply (wp_for (fun w c => c = sum_r 0 pp.[w] f)); [lia|now rewrite P0| |].
    - intros w c Hw ->. apply wp_bind. apply wp_rd; [lia|]. apply wp_bind. apply wp_rd; [lia|]. pose proof (pp_le n nl lp pp np SW w (S w) ltac:(lia) ltac:(lia)).
      pose proof (pp_le_n n nl lp pp np SW (S w) ltac:(lia)). apply (wp_for (fun i c => c = sum_r 0 i f)); [lia|auto| |auto].
      intros i c Hi ->. destruct SC as (C1 & _). specialize (C1 i ltac:(lia)). apply wp_bind. apply wp_rd; [lia|]. apply wp_bind. apply wp_rd; [lia|]. apply wp_bind. apply wp_rd; [lia|].
      apply wp_ret. now rewrite sum_r_S by lia.
    - intros c ->. apply wp_ret. now rewrite PN, E. }
  apply wp_ok in G. destruct G as (r & -> & ->). reflexivity.
Qed.
Print Assumptions C135_average_size.

Lemma filter_len {A} (f : A -> bool) l : length (filter f l) <= length l.
Proof. induction l as [|x l IH]; cbn; [lia|]. destruct (f x); cbn; lia. Qed.

(** adjacent positions of part w that hold consecutive numbers *)
Definition adjacent (pp np : list nat) (w : nat) : nat := length (filter (fun k => np.[S k] =? S np.[k]) (seq pp.[w] (pp.[S w] - 1 - pp.[w]))).

(** consecutiveRatio: the numerator counts these; the denominator is always n minus the number of parts. *)
Theorem C135_ratio : forall n nl lp pp np, sched_wf n nl lp pp np ->
  consecutiveRatio nl lp pp np = Ok (sum_r 0 lp.[nl] (adjacent pp np), (Z.of_nat n - Z.of_nat lp.[nl])%Z).
Proof.
  intros n nl lp pp np SW. pose proof SW as (LL & L0 & _ & LP & P0 & PM & PN & LN).
  match goal with |- ?x = Ok ?y => assert (G : wp x (fun r => r = y)) end.
  { unfold consecutiveRatio. apply wp_bind. apply wp_rd; [lia|].
    apply (wp_for (fun w r => r = (sum_r 0 w (adjacent pp np), (Z.of_nat pp.[w] - Z.of_nat w)%Z))); [lia|now rewrite P0| |].
    - intros w r Hw ->. apply wp_bind. apply wp_rd; [lia|]. apply wp_bind. apply wp_rd; [lia|]. pose proof (pp_le n nl lp pp np SW w (S w) ltac:(lia) ltac:(lia)).
      pose proof (pp_le_n n nl lp pp np SW (S w) ltac:(lia)). apply wp_bind.
      assert (R : wp (for_ pp.[w] (pp.[S w] - 1) (fun k1 sum => y <- rd np (S k1);; x <- rd np k1;; Ok (if y =? S x then S sum else sum)) (sum_r 0 w (adjacent pp np)))
                (fun s => s = sum_r 0 w (adjacent pp np) + adjacent pp np w)).
      { unfold adjacent at 3. destruct (Nat.le_gt_cases pp.[w] (pp.[S w] - 1)).
        - apply (wp_for (fun i s => s = sum_r 0 w (adjacent pp np) + length (filter (fun k => np.[S k] =? S np.[k]) (seq pp.[w] (i - pp.[w]))))); [lia|rewrite Nat.sub_diag; cbn; lia| |auto].
          intros i s Hi ->. apply wp_bind. apply wp_rd; [lia|]. apply wp_bind. apply wp_rd; [lia|]. apply wp_ret. rewrite seq_snoc by lia. rewrite filter_app, app_length. cbn [filter].
          destruct (_ =? _); cbn; lia.
        - rewrite for_nil by lia. apply wp_ret. replace (pp.[S w] - 1 - pp.[w]) with 0 by lia. cbn. lia. }
      eapply wp_mono; [exact R|]. intros s ->. apply wp_ret. rewrite sum_r_S by lia. f_equal. lia.
    - intros r ->. now rewrite PN. }
  apply wp_ok in G. destruct G as (r & -> & ->). reflexivity.
Qed.
Print Assumptions C135_ratio.

(** Without empty parts the ratio is at most 1 (its denominator counts all adjacent positions). *)
Theorem C135_at_most_one : forall n nl lp pp np sum t, sched_wf n nl lp pp np -> (forall w, w < lp.[nl] -> pp.[w] < pp.[S w]) ->
  consecutiveRatio nl lp pp np = Ok (sum, t) -> (Z.of_nat sum <= t)%Z.
Proof.
  intros n nl lp pp np sum t SW NE E. rewrite (C135_ratio n) in E by auto. injection E as <- <-. pose proof SW as (_ & _ & _ & _ & P0 & _ & <- & _).
  assert (K : forall w, w <= lp.[nl] -> sum_r 0 w (adjacent pp np) + w <= pp.[w]).
  { induction w as [|w IH]; intros Hw; [cbn; lia|]. rewrite sum_r_S by lia. specialize (IH ltac:(lia)). specialize (NE w ltac:(lia)).
    assert (adjacent pp np w <= pp.[S w] - 1 - pp.[w]); [|lia]. unfold adjacent. rewrite <- (seq_length (pp.[S w] - 1 - pp.[w]) pp.[w]) at 2. apply filter_len. }
  specialize (K lp.[nl] ltac:(lia)). lia.
Qed.
Print Assumptions C135_at_most_one.

(** An empty part lowers the denominator: two adjacent pairs out of one. *)
Theorem C135_empty_part_refuted : ~ (forall n nl lp pp np sum t, sched_wf n nl lp pp np -> sched_complete n np ->
  consecutiveRatio nl lp pp np = Ok (sum, t) -> (Z.of_nat sum <= t)%Z).
Proof.
  intros H. specialize (H 3 1 [0;2] [0;3;3] [0;1;2] 2 1%Z). assert (Z.of_nat 2 <= 1)%Z; [|lia]. apply H; [| |vm_compute; reflexivity].
  - unfold sched_wf. splits; cbn; try lia; intros l Hl; do 3 (destruct l as [|l]; [cbn; lia|]); lia.
  - split; [intros k Hk; do 3 (destruct k; [cbn; lia|]); lia|]. intros k k' Hk Hk'. do 3 (destruct k as [|k]; [do 3 (destruct k' as [|k']; [cbn; lia|]); lia|]). lia.
Qed.
Print Assumptions C135_empty_part_refuted.

Example C135_nonvacuous : sched_wf 5 2 [0;2;3] [0;2;3;5] [0;2;1;3;4] /\ sched_complete 5 [0;2;1;3;4] /\
  averWsize 2 [0;1;2;5;7;8] [0;2;3] [0;2;3;5] [0;2;1;3;4] = Ok (8, 3) /\ consecutiveRatio 2 [0;2;3] [0;2;3;5] [0;2;1;3;4] = Ok (1, 2%Z).
Proof. splits; try apply ex_sched; vm_compute; reflexivity. Qed.
