(** Properties C28-C31: the parallel triangular solves. *)
From Coq Require Import ZifyBool ZifyNat.
From Verif Require Import Base Lib Lib2 Spec SpecSolve Check CheckS M_SpTRSV L_SpTRSV L_SpTRSV2.

(** the matrix: rows with a diagonal last entry, the other entries left of it *)
Definition lower_rows {V} (n : nat) (Lp Li : list nat) (Lx : list V) : Prop :=
  wf_rows n Lp Li /\ rows_lower n Lp Li /\ Lp.[n] <= length Lx.

(** Every interleaving of the program [P] started on [b] computes what the serial code
    computes: no access fails, no execution is infinite, an unfinished execution can
    step, there is a complete execution, and every complete execution ends with the
    vector of the serial code, which is the forward solution. *)
Definition same_as_serial {V} `{Dflt V} fms quo (n : nat) (Lp Li : list nat) (Lx b : list V) (P : prog) : Prop :=
  exists y, sptrsv_csr fms quo Lp Li Lx n b = Ok y /\ forward_solution fms quo n Lp Li Lx b y /\
    (forall s, x_steps fms quo Lp Li Lx P (x_start P b) s ->
       ~ x_bad fms quo Lp Li Lx P s /\ (x_final P s \/ exists s', x_step fms quo Lp Li Lx P s s')) /\
    (~ exists run, run 0 = x_start P b /\ forall i, x_step fms quo Lp Li Lx P (run i) (run (S i))) /\
    (exists x', x_exec fms quo Lp Li Lx P b x') /\
    (forall x', x_exec fms quo Lp Li Lx P b x' -> x' = y).

Definition race_free {V} fms quo (Lp Li : list nat) (Lx b : list V) (P : prog) : Prop :=
  forall s, x_steps fms quo Lp Li Lx P (x_start P b) s -> ~ x_race Lp Li P s.

Lemma row_dep_bounds n Lp Li u v : wf_rows n Lp Li -> row_dep n Lp Li u v -> u < n /\ v < n.
Proof.
  intros WR (Hv & j & Hj & <-). split; auto. pose proof WR as [(W1 & W2 & W3 & W4 & W5) _]. apply W5.
  assert (Lp.[S v] <= Lp.[n]) by (apply (mono_le (aget Lp) n); auto; lia). lia.
Qed.

Lemma row_dep_irrefl n Lp Li u : rows_lower n Lp Li -> ~ row_dep n Lp Li u u.
Proof. intros HL H. specialize (HL _ _ H). lia. Qed.

Lemma prog_solves {V} `{Dflt V} fms quo n Lp Li (Lx b : list V) P :
  lower_rows n Lp Li Lx -> n <= length b -> prog_ok n (row_dep n Lp Li) P ->
  same_as_serial fms quo n Lp Li Lx b P /\ race_free fms quo Lp Li Lx b P.
Proof.
  intros (WR & LT & HX) Hb PO.
  assert (G := sptrsv_csr_wp fms quo n Lp Li Lx WR HX b (forward_solution fms quo n Lp Li Lx b) LT Hb (fun y Hy => Hy)).
  apply wp_ok in G. destruct G as (y & Ey & FS).
  assert (HI : forall s, x_steps fms quo Lp Li Lx P (x_start P b) s -> XInv fms n Lp Li Lx P b y s).
  { intros s Hs. eapply (steps_XInv fms quo n Lp Li Lx WR HX P b y PO Hb FS); eauto. eapply start_XInv; eauto. }
  split.
  - exists y. splits; auto.
    + intros s Hs. split; [eapply XInv_not_bad; eauto|eapply XInv_progress; eauto].
    + apply terminates_no_infinite. eapply XInv_terminates; eauto. apply HI. constructor.
    + eapply terminates_exec; eauto.
    + intros x' (l & ths & Hs & ->). specialize (HI _ Hs).
      eapply (XInv_final fms quo n Lp Li Lx) in HI; eauto; reflexivity.
  - intros s Hs. eapply XInv_no_race; eauto.
Qed.

(** C28.  Level-set solve. *)
Theorem C28_levelset_solve_serial :
  forall (V : Type) (DV : Dflt V) fms quo n Lp Li (Lx b : list V) k levelPtr levelSet,
  lower_rows n Lp Li Lx -> n <= length b ->
  level_partition n k levelPtr levelSet -> level_ordered (row_dep n Lp Li) k levelPtr levelSet ->
  k < length levelPtr -> n <= length levelSet ->
  exists P, levelset_prog k levelPtr levelSet = Ok P /\ same_as_serial fms quo n Lp Li Lx b P.
Proof.
  intros V DV fms quo n Lp Li Lx b k lp ls HL Hb LP LO L1 L2.
  eexists. split; [exact (levelset_prog_ok n k lp ls LP L1 L2)|].
  apply (prog_solves fms quo); auto. destruct HL as (WR & LT & _). apply prog_ok_nodes.
  - intros u v Huv. now apply row_dep_bounds in Huv.
  - intros u. now apply row_dep_irrefl.
  - now apply level_parts.
Qed.
Print Assumptions C28_levelset_solve_serial.

(** C29.  Solve over a coarsened schedule. *)
Theorem C29_lbc_solve_serial :
  forall (V : Type) (DV : Dflt V) fms quo n Lp Li (Lx b : list V) level_no level_ptr par_ptr partition,
  lower_rows n Lp Li Lx -> n <= length b ->
  valid_schedule n (row_dep n Lp Li) level_no level_ptr par_ptr partition ->
  exists P, lbc_prog level_no level_ptr par_ptr partition = Ok P /\ same_as_serial fms quo n Lp Li Lx b P.
Proof.
  intros V DV fms quo n Lp Li Lx b no clp cpp cnp HL Hb VS.
  eexists. split; [exact (lbc_prog_ok _ _ _ _ _ _ VS)|].
  apply (prog_solves fms quo); auto. destruct HL as (WR & LT & _). apply prog_ok_nodes; auto.
  - intros u v Huv. now apply row_dep_bounds in Huv.
  - intros u. now apply row_dep_irrefl.
Qed.
Print Assumptions C29_lbc_solve_serial.

(** ** The single-threaded variants *)

Lemma sched_pos_lt n (E : nat -> nat -> Prop) no clp cpp cnp k k' : valid_schedule n E no clp cpp cnp ->
  k < n -> k' < n -> E cnp.[k] cnp.[k'] -> k < k'.
Proof.
  intros VS Hk Hk' He. pose proof VS as ((S1 & S2 & S3 & S4 & S5 & S6 & S7 & S8) & (C1 & C2) & SO).
  assert (G : forall k, k < n -> exists l p, l < no /\ sched_at clp cpp cnp l p k cnp.[k]).
  { intros j Hj. destruct (bucket_exists (aget cpp) clp.[no] j) as (p & Hp & Hkp); try lia.
    destruct (bucket_exists (aget clp) no p) as (l & Hl & Hpl); try lia. exists l, p. unfold sched_at. auto. }
  destruct (G k Hk) as (l & p & Hl & HS). destruct (G k' Hk') as (l' & p' & Hl' & HS').
  destruct (SO _ _ _ _ _ _ _ _ He Hl Hl' HS HS') as [Hlt|(_ & _ & ?)]; auto.
  destruct (sch_bounds _ _ _ _ _ _ VS _ _ _ _ Hl HS) as (B1 & _). destruct (sch_bounds _ _ _ _ _ _ VS _ _ _ _ Hl' HS') as (B1' & _).
  destruct HS as (A1 & A2 & _), HS' as (A1' & A2' & _).
  assert (clp.[S l] <= clp.[l']) by (apply (mono_le (aget clp) no); auto; lia).
  assert (cpp.[S p] <= cpp.[p']) by (apply (mono_le (aget cpp) clp.[no]); auto; lia). lia.
Qed.

Section Seq.
Context {V : Type} {DV : Dflt V}.
Variables (fms : V -> V -> V -> V) (quo : V -> V -> V) (n : nat) (Lp Li : list nat) (Lx b y : list V).
Variables (no : nat) (clp cpp cnp : list nat).
Hypothesis HL : lower_rows n Lp Li Lx.
Hypothesis Hb : n <= length b.
Hypothesis FS : forward_solution fms quo n Lp Li Lx b y.
Hypothesis VS : valid_schedule n (row_dep n Lp Li) no clp cpp cnp.

Definition seq_inv (m : nat) (x : list V) : Prop :=
  length x = length b /\ (forall i, n <= i -> x.[i] = b.[i]) /\
  (forall k, k < n -> x.[cnp.[k]] = if k <? m then y.[cnp.[k]] else b.[cnp.[k]]).

Lemma seq_row_wp k x : k < n -> seq_inv k x ->
  wp (i <- rd cnp k ;; solve_row fms quo Lp Li Lx i x) (seq_inv (S k)).
Proof.
  intros Hk (I1 & I2 & I3). pose proof VS as ((S1 & S2 & S3 & S4 & S5 & S6 & S7 & S8) & (C1 & C2) & SO).
  destruct HL as (WR & LT & HX). wp1. apply wp_rd; [lia|]. specialize (C1 k Hk) as Hv.
  apply (solve_row_wp fms quo n Lp Li Lx WR HX b y); auto; [lia|..].
  - rewrite I3 by auto. now rewrite Nat.ltb_irrefl.
  - intros u Hu. split; [specialize (LT _ _ Hu); lia|].
    destruct (row_dep_bounds n Lp Li u _ WR Hu) as [Hun _].
    destruct (inj_onto n (aget cnp) C1 C2 u Hun) as (j & Hj & <-).
    pose proof (sched_pos_lt _ _ _ _ _ _ j k VS Hj Hk Hu). rewrite I3 by auto. now replace (j <? k) with true by lia.
  - unfold seq_inv. rewrite upd_length. splits; auto.
    + intros i Hi. rewrite aget_upd_ne by lia. auto.
    + intros j Hj. destruct (Nat.eq_dec j k) as [->|Hn].
      * rewrite aget_upd_eq by lia. replace (k <? S k) with true by lia. destruct FS as (_ & _ & F). now rewrite F.
      * rewrite aget_upd_ne by (intros Heq; apply Hn; apply C2; auto). rewrite I3 by auto.
        destruct (Nat.ltb_spec j k), (Nat.ltb_spec j (S k)); auto; lia.
Qed.

Lemma lbc_seq_wp : wp (sptrsv_csr_lbc_seq fms quo Lp Li Lx no clp cpp cnp b) (fun x => x = y).
Proof.
  pose proof VS as ((S1 & S2 & S3 & S4 & S5 & S6 & S7 & S8) & (C1 & C2) & SO). unfold sptrsv_csr_lbc_seq.
  apply wp_for with (I := fun l x => seq_inv cpp.[clp.[l]] x).
  - lia.
  - rewrite S2, S5. unfold seq_inv. splits; auto.
  - intros l x Hl HI. wp1. apply wp_rd; [lia|]. wp1. apply wp_rd; [lia|].
    pose proof (sch_clp_le _ _ _ _ _ _ VS (S l) ltac:(lia)) as Hc. specialize (S3 l ltac:(lia)).
    apply wp_for with (I := fun p x => seq_inv cpp.[p] x); auto.
    + intros p x1 Hp HI1. wp1. apply wp_rd; [lia|]. wp1. apply wp_rd; [lia|].
      pose proof (sch_cpp_le _ _ _ _ _ _ VS (S p) ltac:(lia)) as Hcp. specialize (S6 p ltac:(lia)).
      apply wp_for with (I := seq_inv); auto.
      * intros k x2 Hk HI2. apply seq_row_wp; auto. lia.
  - intros x (I1 & I2 & I3).  rewrite S7 in I3.
    destruct FS as (F1 & F2 & F3). apply list_ext; [congruence|]. intros i _.
    destruct (le_lt_dec n i) as [Hi|Hi]; [now rewrite I2, F2|].
    destruct (inj_onto n (aget cnp) C1 C2 i Hi) as (j & Hj & <-). rewrite I3 by auto. now replace (j <? n) with true by lia.
Qed.

End Seq.

Theorem C29_lbc_seq_serial :
  forall (V : Type) (DV : Dflt V) fms quo n Lp Li (Lx b : list V) level_no level_ptr par_ptr partition,
  lower_rows n Lp Li Lx -> n <= length b ->
  valid_schedule n (row_dep n Lp Li) level_no level_ptr par_ptr partition ->
  exists y, sptrsv_csr fms quo Lp Li Lx n b = Ok y /\
    sptrsv_csr_lbc_seq fms quo Lp Li Lx level_no level_ptr par_ptr partition b = Ok y.
Proof.
  intros V DV fms quo n Lp Li Lx b no clp cpp cnp HL Hb VS. pose proof HL as (WR & LT & HX).
  assert (G := sptrsv_csr_wp fms quo n Lp Li Lx WR HX b (forward_solution fms quo n Lp Li Lx b) LT Hb (fun y Hy => Hy)).
  apply wp_ok in G. destruct G as (y & Ey & FS). exists y. split; auto.
  pose proof (lbc_seq_wp fms quo n Lp Li Lx b y no clp cpp cnp HL Hb FS VS) as G.
  apply wp_ok in G. destruct G as (x & -> & ->). reflexivity.
Qed.
Print Assumptions C29_lbc_seq_serial.

Theorem C28_levelset_seq_serial :
  forall (V : Type) (DV : Dflt V) fms quo n Lp Li (Lx b : list V) k levelPtr levelSet,
  lower_rows n Lp Li Lx -> n <= length b ->
  level_partition n k levelPtr levelSet -> level_ordered (row_dep n Lp Li) k levelPtr levelSet ->
  k < length levelPtr -> n <= length levelSet ->
  exists y, sptrsv_csr fms quo Lp Li Lx n b = Ok y /\
    sptrsv_csr_levelset_seq fms quo Lp Li Lx k levelPtr levelSet b = Ok y.
Proof.
  intros V DV fms quo n Lp Li Lx b k lp ls HL Hb LP LO L1 L2. pose proof HL as (WR & LT & HX).
  assert (G := sptrsv_csr_wp fms quo n Lp Li Lx WR HX b (forward_solution fms quo n Lp Li Lx b) LT Hb (fun y Hy => Hy)).
  apply wp_ok in G. destruct G as (y & Ey & FS). exists y. split; auto.
  pose proof (level_parts n (row_dep n Lp Li) k lp ls LP LO L1 L2) as VS.
  destruct LP as (P0 & Pm & Pk & Pb & Pi).
  assert (G : wp (sptrsv_csr_levelset_seq fms quo Lp Li Lx k lp ls b) (fun x => x = y)).
  { unfold sptrsv_csr_levelset_seq. apply wp_for with (I := fun l x => seq_inv n b y ls lp.[l] x).
    - lia.
    - rewrite P0. unfold seq_inv. splits; auto.
    - intros l x Hl HI. wp1. apply wp_rd; [lia|]. wp1. apply wp_rd; [lia|].
      assert (lp.[S l] <= n) by (rewrite <- Pk; apply (mono_le (aget lp) k); auto; lia). specialize (Pm l ltac:(lia)).
      apply wp_for with (I := seq_inv n b y ls); auto.
      + intros j x1 Hj HI1. apply (seq_row_wp fms quo n Lp Li Lx b y k lp (seq 0 (S n)) ls HL Hb FS VS); auto. lia.
    - intros x (I1 & I2 & I3). rewrite Pk in I3.
      destruct FS as (F1 & F2 & F3). apply list_ext; [congruence|]. intros i _.
      destruct (le_lt_dec n i) as [Hi|Hi]; [now rewrite I2, F2|].
      destruct (inj_onto n (aget ls) Pb Pi i Hi) as (j & Hj & <-). rewrite I3 by auto. now replace (j <? n) with true by lia. }
  apply wp_ok in G. destruct G as (x & -> & ->). reflexivity.
Qed.
Print Assumptions C28_levelset_seq_serial.

(** C30.  No data race in any reachable state. *)
Theorem C30_solve_race_free :
  forall (V : Type) (DV : Dflt V) fms quo n Lp Li (Lx b : list V) level_no level_ptr par_ptr partition,
  lower_rows n Lp Li Lx -> n <= length b ->
  valid_schedule n (row_dep n Lp Li) level_no level_ptr par_ptr partition ->
  exists P, lbc_prog level_no level_ptr par_ptr partition = Ok P /\ race_free fms quo Lp Li Lx b P.
Proof.
  intros V DV fms quo n Lp Li Lx b no clp cpp cnp HL Hb VS.
  eexists. split; [exact (lbc_prog_ok _ _ _ _ _ _ VS)|].
  apply (prog_solves fms quo n); auto. destruct HL as (WR & LT & _). apply prog_ok_nodes; auto.
  - intros u v Huv. now apply row_dep_bounds in Huv.
  - intros u. now apply row_dep_irrefl.
Qed.
Print Assumptions C30_solve_race_free.

Theorem C30_levelset_race_free :
  forall (V : Type) (DV : Dflt V) fms quo n Lp Li (Lx b : list V) k levelPtr levelSet,
  lower_rows n Lp Li Lx -> n <= length b ->
  level_partition n k levelPtr levelSet -> level_ordered (row_dep n Lp Li) k levelPtr levelSet ->
  k < length levelPtr -> n <= length levelSet ->
  exists P, levelset_prog k levelPtr levelSet = Ok P /\ race_free fms quo Lp Li Lx b P.
Proof.
  intros V DV fms quo n Lp Li Lx b k lp ls HL Hb LP LO L1 L2.
  eexists. split; [exact (levelset_prog_ok n k lp ls LP L1 L2)|].
  apply (prog_solves fms quo n); auto. destruct HL as (WR & LT & _). apply prog_ok_nodes.
  - intros u v Huv. now apply row_dep_bounds in Huv.
  - intros u. now apply row_dep_irrefl.
  - now apply level_parts.
Qed.
Print Assumptions C30_levelset_race_free.

(** C31.  Solves over groups: a partition of the rows into groups whose lists follow the
    dependences, and a schedule of the groups that respects the dependences between
    groups. *)
Theorem C31_group_lbc_solve_serial :
  forall (V : Type) (DV : Dflt V) fms quo n ng Lp Li (Lx b : list V) level_no level_ptr par_ptr partition groupPtr groupSet,
  lower_rows n Lp Li Lx -> n <= length b ->
  group_partition n ng groupPtr groupSet -> group_ordered (row_dep n Lp Li) ng groupPtr groupSet ->
  ng < length groupPtr -> n <= length groupSet ->
  valid_schedule ng (quotient (row_dep n Lp Li) ng groupPtr groupSet) level_no level_ptr par_ptr partition ->
  exists P, group_lbc_prog level_no level_ptr par_ptr partition groupPtr groupSet = Ok P /\
    same_as_serial fms quo n Lp Li Lx b P /\ race_free fms quo Lp Li Lx b P.
Proof.
  intros V DV fms quo n ng Lp Li Lx b no clp cpp cnp gp gs HL Hb GP GO L1 L2 VS.
  eexists. split; [exact (group_lbc_prog_ok n ng _ no clp cpp cnp gp gs VS GP L1 L2)|].
  apply (prog_solves fms quo); auto. destruct HL as (WR & LT & _). apply (prog_ok_groups n ng); auto.
  intros u v Huv. now apply row_dep_bounds in Huv.
Qed.
Print Assumptions C31_group_lbc_solve_serial.

Theorem C31_group_levelset_solve_serial :
  forall (V : Type) (DV : Dflt V) fms quo n ng Lp Li (Lx b : list V) k levelPtr levelSet groupPtr groupSet,
  lower_rows n Lp Li Lx -> n <= length b ->
  group_partition n ng groupPtr groupSet -> group_ordered (row_dep n Lp Li) ng groupPtr groupSet ->
  ng < length groupPtr -> n <= length groupSet ->
  level_partition ng k levelPtr levelSet ->
  level_ordered (quotient (row_dep n Lp Li) ng groupPtr groupSet) k levelPtr levelSet ->
  k < length levelPtr -> ng <= length levelSet ->
  exists P, group_levelset_prog k levelPtr levelSet groupPtr groupSet = Ok P /\
    same_as_serial fms quo n Lp Li Lx b P /\ race_free fms quo Lp Li Lx b P.
Proof.
  intros V DV fms quo n ng Lp Li Lx b k lp ls gp gs HL Hb GP GO L1 L2 LP LO L3 L4.
  eexists. split; [exact (group_levelset_prog_ok n ng k lp ls gp gs LP L3 L4 GP L1 L2)|].
  apply (prog_solves fms quo); auto. destruct HL as (WR & LT & _). apply (prog_ok_groups n ng); auto.
  - intros u v Huv. now apply row_dep_bounds in Huv.
  - now apply level_parts.
Qed.
Print Assumptions C31_group_levelset_solve_serial.

(** ** The hypotheses are met.  Rows 0; 1; 2 = f(0,1); 3 = f(2), over the integers. *)

Definition ex_Lp := [0;1;2;5;7].
Definition ex_Li := [0;1;0;1;2;2;3].
Definition ex_Lx := [1;2;3;1;1;2;1]%Z.

Example ex_lower_rows : lower_rows 4 ex_Lp ex_Li ex_Lx.
Proof.
  split; [apply wf_rowsb_ok; vm_compute; reflexivity|].
  split; [apply rows_lowerb_ok; vm_compute; reflexivity|vm_compute; lia].
Qed.

Example C28_case :
  level_partition 4 3 [0;2;3;4] [0;1;2;3] /\ level_ordered (row_dep 4 ex_Lp ex_Li) 3 [0;2;3;4] [0;1;2;3].
Proof.
  split; [apply level_partitionb_ok; vm_compute; reflexivity|].
  apply (level_orderedb_ok _ _ _ _ _ (row_depb_ok 4 ex_Lp ex_Li)). vm_compute. reflexivity.
Qed.

(** two parallel parts {0}, {1}, then the part {2,3} *)
Example C29_case : valid_schedule 4 (row_dep 4 ex_Lp ex_Li) 2 [0;2;3] [0;1;2;4] [0;1;2;3].
Proof. apply (valid_scheduleb_ok _ _ _ _ _ _ _ (row_depb_ok 4 ex_Lp ex_Li)). vm_compute. reflexivity. Qed.

(** C30 separates: with the dependent rows 0 and 2 in different parts of one level
    (not a valid schedule) a race is reachable. *)
Example C30_case_race :
  exists P s, lbc_prog 2 [0;2;3] [0;2;3;4] [0;1;2;3] = Ok P /\
    x_steps (fun a l d => (a - l * d)%Z) Z.div ex_Lp ex_Li ex_Lx P (x_start P [5;8;30;33]%Z) s /\ x_race ex_Lp ex_Li P s.
Proof.
  exists [[[0;1];[2]];[[3]]].
  exists (0, [(0, RDiv 5%Z); (0, RLoop 2)], [5;8;30;33]%Z). split; [reflexivity|]. split.
  - set (x := [5;8;30;33]%Z).
    apply xss_step with (s' := (0, [(0, RDiv 5%Z); (0, RStart)], x)).
    apply xss_step with (s' := (0, [(0, RLoop 0); (0, RStart)], x)).
    apply xss_step with (s' := (0, [(0, RStart); (0, RStart)], x)); [apply xss_refl|..].
    + apply (xs_thread _ _ _ _ _ _ 0 [(0, RStart); (0, RStart)] x 0 (0, RStart) (0, RLoop 0) x); vm_compute; auto; congruence.
    + apply (xs_thread _ _ _ _ _ _ 0 [(0, RLoop 0); (0, RStart)] x 0 (0, RLoop 0) (0, RDiv 5%Z) x); vm_compute; auto; congruence.
    + apply (xs_thread _ _ _ _ _ _ 0 [(0, RDiv 5%Z); (0, RStart)] x 1 (0, RStart) (0, RLoop 2) x); vm_compute; auto; congruence.
  - exists 0, 1, (0, RDiv 5%Z), (0, RLoop 2), true, false, 0. vm_compute. splits; auto; discriminate.
Qed.

(** groups {0,2}, {1}, {3}: the group list [0;2] follows the dependence 0 -> 2 *)
Example C31_case :
  group_partition 4 3 [0;1;3;4] [1;0;2;3] /\ group_ordered (row_dep 4 ex_Lp ex_Li) 3 [0;1;3;4] [1;0;2;3] /\
  valid_schedule 3 (quotient (row_dep 4 ex_Lp ex_Li) 3 [0;1;3;4] [1;0;2;3]) 2 [0;1;2] [0;1;3] [0;1;2].
Proof.
  split; [apply level_partitionb_ok; vm_compute; reflexivity|]. split.
  - apply (group_orderedb_ok _ _ _ _ _ (row_depb_ok 4 ex_Lp ex_Li)). vm_compute. reflexivity.
  - apply (valid_scheduleb_ok _ _ _ _ _ _ _ (quotientb_ok _ _ 3 _ _ (row_depb_ok 4 ex_Lp ex_Li))). vm_compute. reflexivity.
Qed.

Example C31_case_levels :
  level_partition 3 3 [0;1;2;3] [0;1;2] /\
  level_ordered (quotient (row_dep 4 ex_Lp ex_Li) 3 [0;1;3;4] [1;0;2;3]) 3 [0;1;2;3] [0;1;2].
Proof.
  split; [apply level_partitionb_ok; vm_compute; reflexivity|].
  apply (level_orderedb_ok _ _ _ _ _ (quotientb_ok _ _ 3 _ _ (row_depb_ok 4 ex_Lp ex_Li))). vm_compute. reflexivity.
Qed.
