(** C144 .. C146: the classes that factorise by columns in parallel, end to end. *)
From Verif Require Import Base Lib Lib2 Lib3 Spec SpecSolve SpecGroup SpecMat SpecRuns SpecIC Check CheckS CheckG M_LevelSet M_Coarsen M_Sched M_SpTRSV M_Mat M_LBC M_Runs M_LBCPipe M_Greedy M_IC0 M_ICPipe
  L_Sched L_SpTRSV L_SpTRSV2 L_Ungroup L_Runs2 P_LevelSet P_HDAGG P_SpTRSV P_Mat P_Pipeline P_Runs P_LBC P_LBCPipe P_SingleChild P_IC0.
From Coq Require Import ZifyBool ZifyNat.

(** the schedule is made from L, the factor may have fewer entries below the diagonal *)
Definition factor_of (n : nat) (Lp Li Fp Fi : list nat) : Prop :=
  chol_pattern n Lp Li /\ chol_pattern n Fp Fi /\ forall u v, edge n Fp Fi u v -> edge n Lp Li u v.

Lemma quotient_mono (E E' : nat -> nat -> Prop) ng gp gs g h : (forall u v, E u v -> E' u v) -> quotient E ng gp gs g h -> quotient E' ng gp gs g h.
Proof. intros HE (A & B & C & u & v & Hu & Hv & He). unfold quotient. splits; auto. exists u, v. auto. Qed.

Lemma chol_dag n Lp Li : chol_pattern n Lp Li -> ~ (0 < n /\ visits_all n (edge n Lp Li)) -> dag_input n Lp Li.
Proof. intros (W & T & S & D) HV. unfold dag_input. splits; auto; [now apply one_diag_of_first|now apply tri_acyclic]. Qed.

(** ** C144.  Wavefronts *)

Theorem C144_ic_wavefront :
  forall (V : Type) (DV : Dflt V) fms quo root n Lp Li Fp Fi (x : list V), factor_of n Lp Li Fp Fi -> Fp.[n] <= length x ->
  ~ visits_all n (edge n Lp Li) ->
  exists O, ic_levelset_class n Lp Li Fp Fi = Ok O /\
    factorises fms quo root n Fp Fi x O /\ like_serial fms quo root n Fp Fi x O.
Proof.
  intros V DV fms quo root n Lp Li Fp Fi x (CL & CF & HE) HX HV. pose proof (chol_dag n Lp Li CL ltac:(tauto)) as DI.
  destruct (HDAGG_levels n Lp Li DI) as (k & ptr & lset & n2l & E & LE & L1 & L2 & _). pose proof DI as (W & D & _ & _).
  destruct (C04_variants_agree n Lp Li [] [] _ _ _ _ _ E) as (_ & EA & EC). specialize (EC eq_refl eq_refl).
  destruct (wavefronts n Lp Li DI) as (k' & ptr' & lset' & EC' & LP & LO & L1' & L2'). rewrite EC in EC'. injection EC' as EK <- <-.
  apply Nat2Z.inj in EK. subst k'.
  destruct (C140_ic_levelset V DV fms quo root n Fp Fi x k ptr lset CF HX LP) as (O & EO & R1 & R2); auto.
  { intros u v lu lv He. apply LO. auto. }
  exists O. split; auto. unfold ic_levelset_class. rewrite EA. cbn [bind]. now rewrite Nat2Z.id.
Qed.
Print Assumptions C144_ic_wavefront.

Lemma exec_nil {V} (fms : V -> V -> V -> V) quo root x x' : i_exec fms quo root [] x x' -> x' = x.
Proof.
  intros (l & ths & Hs & _). assert (G : forall s s', i_steps fms quo root [] s s' -> s' = s).
  { induction 1 as [|s s' s'' Hs1 IH Hst]; auto. destruct Hst; simpl in *; lia. }
  apply G in Hs. now injection Hs as _ _ ->.
Qed.

(** a matrix whose columns form one chain is left as it was *)
Theorem C144_ic_chain_untouched :
  forall (V : Type) (fms : V -> V -> V -> V) quo root n Lp Li Fp Fi (x : list V), factor_of n Lp Li Fp Fi -> 0 < n ->
  visits_all n (edge n Lp Li) ->
  exists O, ic_levelset_class n Lp Li Fp Fi = Ok O /\ forall x', i_exec fms quo root O x x' -> x' = x.
Proof.
  intros V fms quo root n Lp Li Fp Fi x (CL & CF & HE) Hn HV. pose proof CL as (W & T & S & D).
  destruct (C03_failure_code_meaning n Lp Li (repeat 0 (n + 1)) (repeat 0 n) (repeat 0 n) W (one_diag_of_first _ _ _ D)) as (k & [[ptr lset] n2l] & E & HK);
    rewrite ?repeat_length; try lia.
  { rewrite aget_repeat; auto. lia. }
  destruct (C04_variants_agree n Lp Li [] [] _ _ _ _ _ E) as (_ & EA & _).
  assert (k = (-1)%Z) as -> by (apply HK; auto).
  exists []. split; [|intros x'; apply exec_nil]. unfold ic_levelset_class. rewrite EA. reflexivity.
Qed.
Print Assumptions C144_ic_chain_untouched.

(** [[4],[2,5]]: the factor is 2, 1, 2; the class leaves 4, 2, 5 *)
Theorem C144_ic_wavefront_refuted :
  ~ (forall n Lp Li (x : list Z) O x' y, chol_pattern n Lp Li -> Lp.[n] <= length x ->
     ic_levelset_class n Lp Li Lp Li = Ok O -> i_exec (fun a b c => (a - b * c)%Z) Z.div Z.sqrt O x x' ->
     ic0_csc (fun a b c => (a - b * c)%Z) Z.div Z.sqrt n Lp Li x = Ok y -> x' = y).
Proof.
  intros H. specialize (H 2 [0;2;3] [0;1;1] [4;2;5]%Z [] [4;2;5]%Z [2;1;2]%Z).
  assert (K : [4;2;5]%Z = [2;1;2]%Z); [|discriminate]. apply H; try (vm_compute; reflexivity).
  - split; [apply wf_cscb_ok; vm_compute; reflexivity|]. split; [apply lower_trib_ok; vm_compute; reflexivity|].
    split; [apply sorted_colsb_ok; vm_compute; reflexivity|apply diag_firstb_ok; vm_compute; reflexivity].
  - exists 0, (ienter [] 0). split; [constructor|reflexivity].
Qed.
Print Assumptions C144_ic_wavefront_refuted.

(** ** C145.  Load-balanced coarsening of the columns *)

Theorem C145_ic_lbc_end_to_end :
  forall (V : Type) (DV : Dflt V) fms quo root (T : Type) (DT : Dflt T) (zero : T) of_nat add ltb int_max sortp f_sort n Lp Li Fp Fi (x : list V) lp cp ic,
  (forall l, Permutation (sortp l) l) -> factor_of n Lp Li Fp Fi -> Fp.[n] <= length x -> 0 < n ->
  lp <> 0%Z -> (1 <= cp)%Z -> (1 <= ic)%Z ->
  (~ visits_all n (edge n Lp Li) ->
     exists O, ic_lbc_class zero of_nat add ltb int_max sortp f_sort n Lp Li Fp Fi lp cp ic = Ok O /\
       factorises fms quo root n Fp Fi x O /\ like_serial fms quo root n Fp Fi x O) /\
  (visits_all n (edge n Lp Li) -> ic_lbc_class zero of_nat add ltb int_max sortp f_sort n Lp Li Fp Fi lp cp ic = Err Throw).
Proof.
  intros V DV fms quo root T DT zero ofn add ltb im sp f_sort n Lp Li Fp Fi x lp cp ic HS (CL & CF & HE) HX Hn Hlp Hcp Hic.
  pose proof CL as (W & LT & SC & D). pose proof W as (LLp & _). apply one_diag_of_first in D.
  destruct (row_costs_ok zero ofn n Lp) as (cost & E2 & LC & _); [lia|].
  unfold ic_lbc_class. rewrite E2. cbn [bind]. split; intros HV; [|rewrite C44_chain_throws; auto].
  destruct (C44_lbc_valid T DT zero add ltb im sp n Lp Li lp cp ic cost) as (k & level_ptr & pp & np & E3 & VS & Hk & L1 & L2 & L3 & _); auto; try lia.
  { intros (u & d & Hc). exact (tri_acyclic n Lp Li LT u d Hc). }
  assert (VN : exists np', (if f_sort then sort_parts k level_ptr pp np else Ok np) = Ok np' /\ valid_schedule n (edge n Lp Li) k level_ptr pp np').
  { destruct f_sort; [|exists np; auto].
    destruct (sort_parts_valid n _ k level_ptr pp np VS) as (np' & E4 & VS' & _); auto. exists np'. auto. }
  destruct VN as (np' & E4 & VN). apply (valid_schedule_iff n (edge n Fp Fi)) in VN; auto.
  destruct (C140_ic_lbc V DV fms quo root n Fp Fi x k level_ptr pp np' CF HX VN) as (O & EO & R1 & R2).
  exists O. splits; auto. rewrite E3. cbn [bind]. rewrite E4. exact EO.
Qed.
Print Assumptions C145_ic_lbc_end_to_end.

(** ** C146.  Groups of consecutive columns *)

(** the packed graph when the lists are in no particular order, so that repetitions may stay *)
Lemma packed_graph_unsorted n ng D gv gedg (E : nat -> nat -> Prop) : ng <= n -> length D = ng ->
  (forall s, s < ng -> forall h, In h D.[s] <-> E s h) -> (forall g h, E g h -> g < ng /\ h < ng /\ g <> h) ->
  (let F := fun h => S (length (uniq D.[h])) in
    length gv = S n /\ gv.[ng] <= length gedg /\ (forall h, h <= ng -> gv.[h] = sum_r 0 h F) /\
    forall h j, h < ng -> j < F h -> gedg.[gv.[h] + j] = (h :: uniq D.[h]).[j]) ->
  wf_csc ng gv gedg /\ diag_first ng gv gedg /\ (forall g h, edge ng gv gedg g h <-> E g h).
Proof.
  intros Hn LD HD HE (L1 & L2 & P1 & P2). cbv zeta in *. set (F := fun h => S (length (uniq D.[h]))) in *.
  assert (PS : forall g, g < ng -> gv.[S g] = gv.[g] + S (length (uniq D.[g]))). { intros g Hg. rewrite !P1 by lia. rewrite sum_r_S by lia. reflexivity. }
  assert (HEn : forall g k, g < ng -> gv.[g] <= k < gv.[S g] -> gedg.[k] = (g :: uniq D.[g]).[k - gv.[g]]).
  { intros g k Hg Hk. rewrite PS in Hk by auto. replace k with (gv.[g] + (k - gv.[g])) at 1 by lia. apply P2; auto. lia. }
  assert (HIn : forall g h, g < ng -> (entry gv gedg g h <-> h = g \/ E g h)).
  { intros g h Hg. specialize (HD g Hg). split.
    - intros (k & Hk & <-). rewrite (HEn g) by auto. pose proof (PS g Hg) as PSg.
      destruct (k - gv.[g]) as [|j] eqn:Ej; [left; reflexivity|]. right. apply HD, uniq_In. change ((g :: uniq D.[g]).[S j]) with (uniq D.[g]).[j]. apply aget_In. lia.
    - intros [->|H].
      + exists gv.[g]. pose proof (PS g Hg) as PSg. split; [lia|]. rewrite (HEn g), Nat.sub_diag by (auto; lia). reflexivity.
      + apply HD, uniq_In, In_aget in H. destruct H as (j & Hj & <-). exists (gv.[g] + S j). pose proof (PS g Hg) as PSg.
        split; [lia|]. rewrite (HEn g) by (auto; lia). replace (gv.[g] + S j - gv.[g]) with (S j) by lia. reflexivity. }
  splits.
  - unfold wf_csc. splits; auto; try lia.
    + rewrite P1 by lia. apply sum_r_nil. lia.
    + intros i Hi. rewrite PS by auto. lia.
    + intros k Hk. destruct (bucket_exists (aget gv) ng k) as (g & Hg & Hb); auto.
      { rewrite P1, sum_r_nil by lia. lia. }
      assert (He : entry gv gedg g gedg.[k]) by (exists k; auto). apply HIn in He; auto. destruct He as [->|He]; auto. now apply HE in He.
  - intros u Hu. pose proof (PS u Hu) as PSu. split; [lia|]. split.
    + rewrite (HEn u), Nat.sub_diag by (auto; lia). reflexivity.
    + intros k Hk Ek. rewrite (HEn u) in Ek by (auto; lia). destruct (k - gv.[u]) as [|j] eqn:Ej; [lia|]. exfalso.
      change ((u :: uniq D.[u]).[S j]) with (uniq D.[u]).[j] in Ek.
      assert (Hin : In u D.[u]) by (apply uniq_In; rewrite <- Ek at 1; apply aget_In; lia). apply HD in Hin; auto. apply HE in Hin. lia.
  - intros g h. split.
    + intros (Hg & He & Hn'). apply HIn in He; auto. destruct He as [->|]; auto. lia.
    + intros H. destruct (HE g h H) as (Hg & Hh & Hne). split; auto. split; auto. apply HIn; auto.
Qed.

(** the groups the classes make and the graph between them *)
Definition col_groups (n : nat) (Lp Li : list nat) (ng : nat) (gp gs : list nat) : Prop := exists inv,
  inspection_spicocsc_v1 n Lp Li (repeat 0 (n + 1)) (repeat 0 n) (repeat 0 n) = Ok (ng, (gp, gs, inv)).

Lemma ic_group_stages n Lp Li : chol_pattern n Lp Li ->
  exists ng gp gs inv D gv gedg,
    inspection_spicocsc_v1 n Lp Li (repeat 0 (n + 1)) (repeat 0 n) (repeat 0 n) = Ok (ng, (gp, gs, inv)) /\
    fs_ic0csc_inspector_group ng gp gs inv Lp Li (repeat [] ng) = Ok D /\ pack_group_dag n ng D = Ok (gv, gedg) /\
    runs n (next_in_column Lp Li) ng gp gs inv /\ ng <= n /\ (0 < n -> 0 < ng) /\
    group_partition n ng gp gs /\ group_ordered (edge n Lp Li) ng gp gs /\ ng < length gp /\ n <= length gs /\
    wf_csc ng gv gedg /\ diag_first ng gv gedg /\ (forall g h, edge ng gv gedg g h <-> quotient (edge n Lp Li) ng gp gs g h) /\
    (forall g h, quotient (edge n Lp Li) ng gp gs g h -> g < h).
Proof.
  intros (W & LT & SC & DF).
  destruct (C39_csc_runs n Lp Li (repeat 0 (n + 1)) (repeat 0 n) (repeat 0 n) W) as (ng & gp & gs & inv & E1 & L1 & L2 & L3 & Hng & R); try (rewrite repeat_length; lia).
  rewrite !repeat_length in *. destruct (C39_runs_partition _ _ _ _ _ _ R) as (GP & HI & HO). destruct (HO (edge n Lp Li) LT) as (GO & GQ).
  pose proof R as (A1 & A2 & A3 & A4 & A5 & A6). pose proof (runs_members _ _ _ _ _ _ R) as RM.
  assert (MG : forall i, i < ng -> gp.[i] <= gp.[S i]) by (intros i Hi; specialize (A2 i Hi); lia).
  assert (HS : forall j, j < gp.[ng] -> gs.[j] < n) by (intros j Hj; rewrite A4; lia).
  destruct (C130_inspector n ng gp gs inv Lp Li (repeat [] ng) W) as (D & E2 & LD & HD & _); auto; rewrite ?repeat_length in *; try lia.
  assert (HG : forall u, u < n -> exists g, g < ng /\ in_level gp gs g u).
  { intros u Hu. destruct (bucket_exists (aget gp) ng u) as (g & Hg & Hb); try lia; auto. exists g. split; auto. now apply RM. }
  assert (HD' : forall i, i < ng -> forall h, In h D.[i] <-> quotient (edge n Lp Li) ng gp gs i h).
  { intros i Hi h. rewrite HD by auto. rewrite aget_repeat by auto. cbn [app].
    rewrite (C130_edges n ng gp gs inv Lp Li); auto; [|now apply one_diag_of_first|].
    - split.
      + intros (Hn & u & v & He & Eu & Ev). destruct (edge_lt _ _ _ _ _ W He) as (Hu & Hv).
        destruct (HG u Hu) as (g & Hg & Ig). destruct (HG v Hv) as (g' & Hg' & Ig'). pose proof (HI g u Hg Ig). pose proof (HI g' v Hg' Ig').
        subst g g'. subst i h.
        split; [auto|]. split; [auto|]. split; [auto|]. exists u, v. auto.
      + intros (Hg & Hh & Hne & u & v & Iu & Iv & He). split; auto. exists u, v. splits; auto.
    - intros u g Hu Hg. split.
      + intros Eu. destruct (HG u Hu) as (g' & Hg' & Ig'). assert (g' = g) as <- by (rewrite <- (HI g' u); auto). exact Ig'.
      + intros Hin. apply (HI g u Hg Hin). }
  pose proof (pack_group_dag_wp n ng D Hng LD) as G. apply wp_ok in G. destruct G as ([gv gedg] & E3 & HP).
  destruct (packed_graph_unsorted n ng D gv gedg (quotient (edge n Lp Li) ng gp gs) Hng LD HD') as (WG & DG & EG); auto.
  { intros g h (H1 & H2 & H3 & _). auto. }
  exists ng, gp, gs, inv, D, gv, gedg. splits; auto; try lia. intros Hn. destruct ng; lia.
Qed.

Theorem C146_ic_grouping_end_to_end :
  forall (V : Type) (DV : Dflt V) fms quo root n Lp Li Fp Fi (x : list V), factor_of n Lp Li Fp Fi -> Fp.[n] <= length x ->
  exists O, ic_grouping_class n Lp Li Fp Fi = Ok O /\
    factorises fms quo root n Fp Fi x O /\ like_serial fms quo root n Fp Fi x O.
Proof.
  intros V DV fms quo root n Lp Li Fp Fi x (CL & CF & HE) HX.
  destruct (ic_group_stages n Lp Li CL) as (ng & gp & gs & inv & D & gv & gedg & E1 & E2 & E3 & R & Hng & _ & GP & GO & L1 & L2 & WG & DG & EG & GQ).
  destruct (C04_queue_variant ng gv gedg (repeat 0 (n + 1)) (repeat 0 n) WG DG) as (k & ptr & lset & E4 & LP & LO & _ & _ & K1 & K2); rewrite ?repeat_length; try lia.
  { apply tri_acyclic. intros u v He. apply EG in He. auto. }
  { rewrite aget_repeat by lia. reflexivity. }
  destruct (C140_ic_group_levelset V DV fms quo root n ng Fp Fi x k ptr lset gp gs) as (O & EO & R1 & R2); auto.
  { intros g a b Hg Ha Hb He. apply (GO g a b); auto. }
  { intros g h l m He. apply LO. apply EG. now apply (quotient_mono (edge n Fp Fi)). }
  exists O. splits; auto. unfold ic_grouping_class. rewrite E1. cbn [bind]. rewrite E2. cbn [bind]. rewrite E3. cbn [bind]. rewrite E4. exact EO.
Qed.
Print Assumptions C146_ic_grouping_end_to_end.

(** the cost of a group is the sum over its columns (contrast C75) *)
Lemma ic_group_costs_ok {T} {DT : Dflt T} (zero : T) of_nat add n ng gp gs Lp : ng < length gp -> n <= length gs -> n < length Lp ->
  (forall g, g < ng -> gp.[g] <= gp.[S g] <= n) -> (forall k, k < n -> gs.[k] < n) ->
  exists cost, ic_group_costs zero of_nat add ng gp gs Lp = Ok cost /\ length cost = ng /\
    forall g, g < ng -> cost.[g] = fold_left (fun c j => add c (of_nat (Lp.[S gs.[j]] - Lp.[gs.[j]]))) (seq gp.[g] (gp.[S g] - gp.[g])) zero.
Proof.
  intros L1 L2 L3 HG HS. set (val := fun g m => fold_left (fun c j => add c (of_nat (Lp.[S gs.[j]] - Lp.[gs.[j]]))) (seq gp.[g] (m - gp.[g])) zero).
  assert (G : wp (ic_group_costs zero of_nat add ng gp gs Lp) (fun cost => length cost = ng /\ forall g, g < ng -> cost.[g] = val g gp.[S g])).
  { unfold ic_group_costs. apply (wp_for (fun i cost => length cost = ng /\ (forall g, g < i -> cost.[g] = val g gp.[S g]) /\ (forall g, i <= g < ng -> cost.[g] = zero))); [lia| | |].
    - rewrite repeat_length. splits; auto; intros; [lia|apply aget_repeat; lia].
    - intros i cost Hi (H1 & H2 & H3). wp1. wp1; [lia|]. wp1. wp1; [lia|]. specialize (HG i ltac:(lia)).
      apply (wp_for (fun j cost => length cost = ng /\ (forall g, g < i -> cost.[g] = val g gp.[S g]) /\ (forall g, S i <= g < ng -> cost.[g] = zero) /\ cost.[i] = val i j)); [lia| | |].
      + splits; auto; [intros; apply H3; lia|]. unfold val. rewrite Nat.sub_diag. cbn. apply H3. lia.
      + intros j c Hj (K1 & K2 & K3 & K4). wp1. wp1; [lia|]. pose proof (HS j ltac:(lia)). wp1. wp1; [lia|]. wp1. wp1; [lia|]. wp1. wp1; [lia|]. wp1; [lia|]. rewrite upd_length. splits; auto.
        * intros g Hg. rewrite aget_upd_ne by lia. auto.
        * intros g Hg. rewrite aget_upd_ne by lia. auto.
        * rewrite aget_upd_eq by lia. rewrite K4. unfold val. replace (S j - gp.[i]) with (S (j - gp.[i])) by lia. rewrite seq_S, fold_left_app.
          cbn [fold_left]. now replace (gp.[i] + (j - gp.[i])) with j by lia.
      + intros c (K1 & K2 & K3 & K4). splits; auto. intros g Hg. destruct (Nat.eq_dec g i) as [->|]; [exact K4|apply K2; lia].
    - intros cost (H1 & H2 & _). auto. }
  apply wp_ok in G. destruct G as (cost & E & H). eauto.
Qed.

Theorem C146_group_cost : forall n Lp Li, chol_pattern n Lp Li ->
  exists ng gp gs cost, col_groups n Lp Li ng gp gs /\ ic_group_costs 0%Z Z.of_nat Z.add ng gp gs Lp = Ok cost /\
    forall g, g < ng -> cost.[g] = Z.of_nat (group_entries Lp gp g).
Proof.
  intros n Lp Li CP. pose proof CP as (W & _). pose proof W as (W1 & _ & W3 & _).
  destruct (ic_group_stages n Lp Li CP) as (ng & gp & gs & inv & D & gv & gedg & E1 & _ & _ & R & Hng & _ & GP & GO & L1 & L2 & _).
  destruct R as (A1 & A2 & A3 & A4 & A5 & A6).
  assert (HB : forall g, g < ng -> gp.[g] <= gp.[S g] <= n).
  { intros g Hg. specialize (A2 g Hg) as A. split; [lia|]. rewrite <- A3. apply (mono_le (aget gp) ng); [intros i Hi; specialize (A2 i Hi)|..]; lia. }
  destruct (ic_group_costs_ok 0%Z Z.of_nat Z.add n ng gp gs Lp) as (cost & E & LC & HC); auto; try lia.
  { intros k Hk. rewrite A4; lia. }
  exists ng, gp, gs, cost. splits; auto; [exists inv; auto|]. intros g Hg. rewrite HC by auto. destruct (HB g Hg) as (B1 & B2).
  assert (K : forall m, gp.[g] + m <= n -> fold_left (fun c j => (c + Z.of_nat (Lp.[S gs.[j]] - Lp.[gs.[j]]))%Z) (seq gp.[g] m) 0%Z = Z.of_nat (Lp.[gp.[g] + m] - Lp.[gp.[g]])).
  { induction m as [|m IH]; intros Hm; [rewrite Nat.add_0_r, Nat.sub_diag; reflexivity|].
    rewrite seq_S, fold_left_app, IH by lia. cbn [fold_left]. rewrite A4 by lia. specialize (W3 (gp.[g] + m) ltac:(lia)).
    assert (Lp.[gp.[g]] <= Lp.[gp.[g] + m]) by (apply (mono_le (aget Lp) n); destruct W as (_ & _ & ? & _); auto; lia).
    replace (gp.[g] + S m) with (S (gp.[g] + m)) by lia. lia. }
  rewrite K by lia. unfold group_entries. now replace (gp.[g] + (gp.[S g] - gp.[g])) with gp.[S g] by lia.
Qed.
Print Assumptions C146_group_cost.

Theorem C146_ic_grouping_lbc_end_to_end :
  forall (V : Type) (DV : Dflt V) fms quo root (T : Type) (DT : Dflt T) (zero : T) of_nat add ltb int_max sortp f_sort n Lp Li Fp Fi (x : list V) lp cp ic,
  (forall l, Permutation (sortp l) l) -> factor_of n Lp Li Fp Fi -> Fp.[n] <= length x -> 0 < n ->
  lp <> 0%Z -> (1 <= cp)%Z -> (1 <= ic)%Z ->
  exists ng gp gs, col_groups n Lp Li ng gp gs /\
    (~ visits_all ng (quotient (edge n Lp Li) ng gp gs) ->
       exists O, ic_grouping_h2_class zero of_nat add ltb int_max sortp f_sort n Lp Li Fp Fi lp cp ic = Ok O /\
         factorises fms quo root n Fp Fi x O /\ like_serial fms quo root n Fp Fi x O) /\
    (visits_all ng (quotient (edge n Lp Li) ng gp gs) ->
       ic_grouping_h2_class zero of_nat add ltb int_max sortp f_sort n Lp Li Fp Fi lp cp ic = Err Throw).
Proof.
  intros V DV fms quo root T DT zero ofn add ltb im sp f_sort n Lp Li Fp Fi x lp cp ic HS (CL & CF & HE) HX Hn Hlp Hcp Hic.
  destruct (ic_group_stages n Lp Li CL) as (ng & gp & gs & inv & D & gv & gedg & E1 & E2 & E3 & R & Hng & Hpos & GP & GO & L1 & L2 & WG & DG & EG & GQ).
  specialize (Hpos Hn). exists ng, gp, gs. split; [exists inv; auto|]. pose proof CL as (W & _). pose proof W as (W1 & _).
  pose proof R as (A1 & A2 & A3 & A4 & A5 & A6).
  destruct (ic_group_costs_ok zero ofn add n ng gp gs Lp) as (cost & E4 & LC & _); auto; try lia.
  { intros g Hg. specialize (A2 g Hg) as A. split; [lia|]. rewrite <- A3. apply (mono_le (aget gp) ng); [intros i Hi; specialize (A2 i Hi)|..]; lia. }
  { intros k Hk. rewrite A4; lia. }
  assert (VI : visits_all ng (edge ng gv gedg) <-> visits_all ng (quotient (edge n Lp Li) ng gp gs)).
  { assert (CM : forall (E E' : nat -> nat -> Prop), (forall g h, E g h -> E' g h) -> visits_all ng E -> visits_all ng E').
    { intros E E' HE' (path & Hp & Hc). exists path. auto. }
    split; apply CM; intros g h; apply EG. }
  unfold ic_grouping_h2_class. rewrite E1. cbn [bind]. rewrite E2. cbn [bind]. rewrite E3. cbn [bind]. rewrite E4. cbn [bind]. split; intros HV.
  - destruct (C44_lbc_valid T DT zero add ltb im sp ng gv gedg lp cp ic cost) as (k & level_ptr & pp & np & E5 & VS & Hk & _ & _ & L5 & _); auto; try lia.
    { now apply one_diag_of_first. }
    { intros (u & d & Hc). revert Hc. apply tri_acyclic. intros g h He. apply GQ, EG, He. }
    { intros X. apply HV, VI, X. }
    assert (VN : exists np', (if f_sort then sort_parts k level_ptr pp np else Ok np) = Ok np' /\ valid_schedule ng (quotient (edge n Lp Li) ng gp gs) k level_ptr pp np').
    { apply (valid_schedule_iff ng (quotient (edge n Lp Li) ng gp gs)) in VS; [|intros g h; apply EG]. destruct f_sort.
      - destruct (sort_parts_valid ng _ k level_ptr pp np VS) as (np' & E6 & VS' & _); auto. exists np'. auto.
      - exists np. auto. }
    destruct VN as (np' & E6 & VN).
    destruct (C140_ic_group_lbc V DV fms quo root n ng Fp Fi x k level_ptr pp np' gp gs) as (O & EO & R1 & R2); auto.
    { intros g a b Hg Ha Hb He. apply (GO g a b); auto. }
    { apply (valid_schedule_iff ng _ (quotient (edge n Lp Li) ng gp gs)); auto. intros g h. now apply quotient_mono. }
    exists O. splits; auto. rewrite E5. cbn [bind]. rewrite E6. exact EO.
  - rewrite C44_chain_throws; auto; [now apply one_diag_of_first|]. right. now apply VI.
Qed.
Print Assumptions C146_ic_grouping_lbc_end_to_end.

(** ** The hypotheses are met *)

Lemma cholb n Lp Li : wf_cscb n Lp Li = true -> lower_trib n Lp Li = true -> sorted_colsb n Lp Li = true -> diag_firstb n Lp Li = true -> chol_pattern n Lp Li.
Proof. intros A B C D. split; [now apply wf_cscb_ok|split; [now apply lower_trib_ok|split; [now apply sorted_colsb_ok|now apply diag_firstb_ok]]]. Qed.

Lemma factor_self n Lp Li : chol_pattern n Lp Li -> factor_of n Lp Li Lp Li.
Proof. unfold factor_of. auto. Qed.

(** 0,1 -> 2; 3 alone; and three chains of three columns; a factor with the diagonal only *)
Example C144_nonvacuous : factor_of 4 [0;2;4;5;6] [0;2;1;2;2;3] [0;2;4;5;6] [0;2;1;2;2;3] /\
  factor_of 4 [0;2;4;5;6] [0;2;1;2;2;3] [0;1;2;3;4] [0;1;2;3] /\
  ~ visits_all 4 (edge 4 [0;2;4;5;6] [0;2;1;2;2;3]) /\
  ic_levelset_class 4 [0;2;4;5;6] [0;2;1;2;2;3] [0;2;4;5;6] [0;2;1;2;2;3] = Ok [[[ORoot 0; ODiv 1 0; OUpd 4 1 1]; [ORoot 2; ODiv 3 2; OUpd 4 3 3]; [ORoot 5]]; [[ORoot 4]]].
Proof.
  splits.
  - apply factor_self, cholb; vm_compute; reflexivity.
  - split; [apply cholb; vm_compute; reflexivity|]. split; [apply cholb; vm_compute; reflexivity|].
    intros u v (Hu & (j & Hj & Ej) & Hn). exfalso. do 4 (destruct u as [|u]; [cbn in Hj; assert (j = Nat.pred (S j)) by lia; do 4 (destruct j as [|j]; [cbn in Ej; lia|]); lia|]). lia.
  - eapply not_chain; [lia|now apply wf_cscb_ok|apply one_diag_of_first; now apply diag_firstb_ok|vm_compute; reflexivity|lia].
  - vm_compute. reflexivity.
Qed.

Example C145_nonvacuous : factor_of 9 chains3_p chains3_i chains3_p chains3_i /\ ~ visits_all 9 (edge 9 chains3_p chains3_i) /\
  exists O, ic_lbc_class 0%Z Z.of_nat Z.add Z.ltb INT_MAX sort_desc true 9 chains3_p chains3_i chains3_p chains3_i 2 1 1 = Ok O.
Proof.
  destruct C44_hyps as (_ & _ & _ & C2). splits; auto; [apply factor_self, cholb; vm_compute; reflexivity|]. eexists. vm_compute. reflexivity.
Qed.

(** columns 0,1 and 2 update column 3; groups {0}, {1}, {2,3}, {4} *)
Example C146_nonvacuous : let Lp := [0;2;4;6;7;8] in let Li := [0;3; 1;3; 2;3; 3; 4] in
  factor_of 5 Lp Li Lp Li /\ col_groups 5 Lp Li 4 [0;1;2;4;5;0] [0;1;2;3;4] /\
  (exists O, ic_grouping_class 5 Lp Li Lp Li = Ok O) /\
  exists O, ic_grouping_h2_class 0%Z Z.of_nat Z.add Z.ltb INT_MAX sort_desc true 5 Lp Li Lp Li 2 1 1 = Ok O.
Proof.
  cbv zeta. splits; [apply factor_self, cholb; vm_compute; reflexivity|exists [0;1;2;2;3]; vm_compute; reflexivity|eexists; vm_compute; reflexivity..].
Qed.
