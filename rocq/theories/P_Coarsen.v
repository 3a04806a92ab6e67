(** C18: fixed-size level coarsening (build_coarsened_level_parallel). *)
From Verif Require Import Base Lib Lib2 Spec Check M_LevelSet L_LevelSet L_LevelSet2 M_Sched L_Sched2 L_HDAGG3 M_Coarsen
  P_Sched P_HDAGG.
From Coq Require Import ZifyBool ZifyNat.

Lemma cut_points_wp cf k (Q : list nat -> Prop) : 0 < cf -> 0 < k ->
  (forall WM, strict_cuts k WM -> (forall i, S i < length WM -> WM.[i] = i * cf) -> Q WM) ->
  wp (cut_points cf k) Q.
Proof.
  intros Hc Hk HQ. unfold cut_points. wp1.
  apply (wp_while (fun st => let '(i, WM, brk) := st in
     if brk : bool then strict_cuts k WM /\ (forall j, S j < length WM -> WM.[j] = j * cf)
     else i = length WM * cf /\ i < k /\ (forall j, j < length WM -> WM.[j] = j * cf))
     (fun st => let '(i, WM, brk) := st in if brk : bool then 0 else k - i)).
  - splits; auto. simpl. intros; lia.
  - lia.
  - intros ((i & WM) & brk) HI. apply wp_ret. destruct brk; simpl.
    + apply wp_ret. destruct HI. auto.
    + destruct HI as (-> & H1 & H2). destruct (Nat.ltb_spec (length WM * cf) k) as [_|]; [|lia].
      assert (G1 : forall j, j < length (WM ++ [length WM * cf]) -> (WM ++ [length WM * cf]).[j] = j * cf).
      { intros j Hj. rewrite app_length in Hj. simpl in Hj. destruct (Nat.eq_dec j (length WM)) as [->|].
        - apply aget_app_last.
        - rewrite aget_app1 by lia. apply H2. lia. }
      set (WM1 := WM ++ [length WM * cf]) in *.
      assert (L1 : length WM1 = S (length WM)) by (unfold WM1; rewrite app_length; simpl; lia).
      destruct (Nat.leb_spec k (length WM * cf + cf)) as [Hle|Hgt]; apply wp_ret.
      * split; [|lia].
        assert (G2 : forall j, S j < length (WM1 ++ [k]) -> (WM1 ++ [k]).[j] = j * cf).
        { intros j Hj. rewrite app_length in Hj. simpl in Hj. rewrite aget_app1 by lia. apply G1. lia. }
        assert (G3 : (WM1 ++ [k]).[length WM1] = k) by apply aget_app_last.
        split; auto. unfold strict_cuts. rewrite app_length. simpl. splits; try lia.
        -- rewrite G2; [lia|rewrite app_length; simpl; lia].
        -- intros j Hj. rewrite G2 by (rewrite app_length; simpl; lia).
           destruct (Nat.eq_dec (S j) (length WM1)) as [Ej|Ej].
           ++ rewrite Ej, G3. assert (j = length WM) as -> by lia. lia.
           ++ rewrite G2 by (rewrite app_length; simpl; lia). nia.
        -- replace (length WM1 + 1 - 1) with (length WM1) by lia. auto.
      * rewrite L1. change (S (length WM) * cf) with (cf + length WM * cf). split; [|lia]. splits; try lia. intros j Hj. apply G1. lia.
Qed.

(** levels, one part each, are a valid schedule *)
Lemma levels_schedule n (E : nat -> nat -> Prop) k ptr lset :
  level_partition n k ptr lset -> level_ordered E k ptr lset -> k < length ptr -> n <= length lset ->
  valid_schedule n E k (seq 0 (S k)) ptr lset.
Proof.
  intros (P0 & Pm & Pk & Pb & Pi) O L1 L2.
  assert (G : forall l, l <= k -> (seq 0 (S k)).[l] = l).
  { intros l Hl. unfold aget. rewrite seq_nth; lia. }
  unfold valid_schedule, sched_wf, sched_complete. rewrite seq_length, !G by lia. splits; auto; try lia.
  - intros l Hl. rewrite !G by lia. lia.
  - intros u v lu pu ku lv pv kv He Hlu Hlv (A1 & A2 & A3) (B1 & B2 & B3). rewrite !G in A1, B1 by lia.
    left. apply (O u v); auto.
    + exists ku. assert (pu = lu) by lia. subst pu. auto.
    + exists kv. assert (pv = lv) by lia. subst pv. auto.
Qed.

(** C18.  Both paths: windows of 6 or 9 levels (ratio >= 10), or one part per level
    (ratio < 10).  [cpp0], [cnp0]: what the caller's vectors hold beforehand. *)
Theorem C18_build_coarsened_valid :
  forall junk n Lp Li cores cpp0 cnp0,
  0 < n -> dag_input n Lp Li -> cpp0.[0] = 0 ->
  exists no clp cpp cnp,
    build_coarsened_level_parallel junk n Lp Li cores cpp0 cnp0 = Ok (Z.of_nat no, clp, cpp, cnp) /\
    valid_schedule n (edge n Lp Li) no clp cpp cnp.
Proof.
  intros junk n Lp Li cores cpp0 cnp0 Hn DI H0. pose proof DI as (W & D & A & V).
  unfold build_coarsened_level_parallel.
  rewrite (rd_ok Lp n) by apply W. simpl bind.
  unfold lbc_config. destruct (Nat.eqb_spec n 0); [lia|].
  assert (Merge : forall cf, 0 < cf -> exists no clp cpp cnp,
    ('(nl, (level_ptr, level_set, node_to_level)) <-
       build_levelSet_CSC n Lp Li (repeat 0 (n + 1)) (repeat 0 n) (repeat 0 n) ;;
    WM <- cut_points cf (Z.to_nat nl) ;;
    if length WM =? 0 then Err OOB
    else
      '(no, clp, cpp, cnp) <- computeSchedule n Lp Li level_ptr level_set node_to_level junk cores WM [[0]] false false ;;
      Ok (Z.of_nat no, clp, cpp, cnp)) = Ok (Z.of_nat no, clp, cpp, cnp) /\
    valid_schedule n (edge n Lp Li) no clp cpp cnp).
  { intros cf Hcf. destruct (HDAGG_levels n Lp Li DI) as (k & ptr & lset & n2l & Eq & HX & L1 & L2 & L3).
    assert (Hk : 0 < k) by (destruct HX as (_ & _ & _ & HK & _); now destruct (HK Hn)).
    assert (LI : levels_input n Lp Li k ptr lset n2l).
    { unfold levels_input. splits; auto; [apply HX|now apply (levels_ordered n Lp Li k ptr lset n2l)|].
      intros l v Hl Hi. now destruct (levels_in_level _ _ _ _ _ _ _ _ _ HX Hl Hi) as (_ & ? & _). }
    assert (G := cut_points_wp cf k (strict_cuts k) Hcf Hk ltac:(auto)).
    apply wp_ok in G. destruct G as (WM & Ew & SC).
    destruct (C09_schedule_components_valid n Lp Li k ptr lset n2l junk cores WM [[0]] false W LI (strict_cuts_cuts _ _ SC)
       ltac:(discriminate)) as (no & clp & cpp & cnp & Ec & _ & VS).
    exists no, clp, cpp, cnp. split; auto. rewrite Eq. simpl bind. rewrite Nat2Z.id, Ew. simpl bind.
    destruct (Nat.eqb_spec (length WM) 0) as [E0|_]; [destruct SC; lia|]. rewrite Ec. reflexivity. }
  destruct (Lp.[n] / n <? 10).
  - simpl. destruct (build_levelSet_total n Lp Li (resize cpp0 (n + 1)) (resize cnp0 n) (repeat 0 n) W D)
      as (k & ptr & lset & n2l & Eq & H); rewrite ?resize_length, ?repeat_length; try lia.
    { unfold resize. destruct cpp0 as [|x t].
      - rewrite firstn_nil. simpl. rewrite aget_repeat; auto. lia.
      - replace (n + 1) with (S n) by lia. simpl. exact H0. }
    pose proof (build_levelSet_lengths n Lp Li _ _ _ _ Eq) as (L1 & L2 & L3).
    rewrite resize_length in L1, L2.
    destruct H as [(_ & _ & [(u & c & Hc)|HV])|(Hk & HX & _)]; [exfalso; exact (A u c Hc)|exfalso; auto|].
    exists (Z.to_nat k), (seq 0 (S (Z.to_nat k))), ptr, lset. rewrite Eq. simpl bind. split.
    + rewrite Z2Nat.id by auto. now replace (Z.to_nat (k + 1)) with (S (Z.to_nat k)) by lia.
    + apply levels_schedule.
      * apply HX.
      * now apply (levels_ordered n Lp Li _ ptr lset n2l).
      * destruct HX as (_ & ? & _). lia.
      * lia.
  - destruct (Lp.[n] / n <? 100); apply (Merge); lia.
Qed.
Print Assumptions C18_build_coarsened_valid.

(** a graph that takes the merging path: 21 nodes with all edges except 19 -> 20 *)
Definition dense_Lp : list nat := map (fun i => 21 * i - i * (i - 1) / 2 - (if 19 <? i then 1 else 0)) (seq 0 22).
Definition dense_Li : list nat :=
  concat (map (fun i => if i =? 19 then [19] else seq i (21 - i)) (seq 0 21)).

Example C18_case : wf_csc 21 dense_Lp dense_Li /\ diag_first 21 dense_Lp dense_Li /\ lower_tri 21 dense_Lp dense_Li /\
  ~ visits_all 21 (edge 21 dense_Lp dense_Li) /\
  build_coarsened_level_parallel 0 21 dense_Lp dense_Li 4 [] []
    = Ok (4%Z, [0;1;2;3;4], [0;6;12;18;21], seq 0 21).
Proof.
  assert (W : wf_csc 21 dense_Lp dense_Li) by now apply wf_cscb_ok.
  assert (DF : diag_first 21 dense_Lp dense_Li) by now apply diag_firstb_ok.
  splits; auto.
  - now apply lower_trib_ok.
  - intros HV.
    destruct (build_levelSet_total 21 dense_Lp dense_Li (repeat 0 22) (repeat 0 21) (repeat 0 21) W
       (one_diag_of_first _ _ _ DF)) as (k & ptr & lset & n2l & Eq & H); try (simpl; lia); auto.
    vm_compute in Eq. inversion Eq; subst k. destruct H as [(? & _)|(_ & _ & H)]; [discriminate|]. apply H. split; auto. lia.
Qed.
