(** C85: coarsening the elimination tree of a sparse matrix. *)
From Coq Require Import ZifyBool ZifyNat.
From Verif Require Import Base Lib Lib2 Lib3 Spec SpecMat SpecSym SpecETree SpecSolve Check M_Mat M_Sched M_SpTRSV M_ETree M_LBC M_Runs M_LBCPipe M_LBCTree M_Sym M_CscTree
  L_Mat L_Mat2 L_SpTRSV L_SpTRSV2 L_ETree L_LBCTree P_LevelSet P_TreeH P_Post P_ETree P_SpTRSV P_Mat P_Pipeline P_LBCPipe P_LBCTree P_Sym P_Sym2.

(** the off-diagonal entries of the symmetric matrix that is stored: its lower triangle by columns
    (stype < 0), its upper triangle by columns (stype > 0), or the matrix plus its transpose *)
Definition sym_adj (n : nat) (Ap Ai : list nat) (stype : Z) (i k : nat) : Prop :=
  i < k /\ k < n /\
  (if (stype <? 0)%Z then entry Ap Ai i k else if (0 <? stype)%Z then entry Ap Ai k i else entry Ap Ai i k \/ entry Ap Ai k i).

Lemma entry_col {V} {DV : Dflt V} Ap Ai (Ax : list V) c i : In i (map fst (col Ap Ai Ax c)) <-> entry Ap Ai c i.
Proof.
  unfold col. rewrite map_map, in_map_iff. cbn [fst]. split.
  - intros (k & E & Hk). apply in_seq in Hk. exists k. split; [lia|auto].
  - intros (k & Hk & E). exists k. split; auto. apply in_seq. lia.
Qed.

Lemma fill_iff2 (A B : nat -> nat -> Prop) : (forall i k, A i k <-> B i k) -> forall x y, fill A x y -> fill B x y.
Proof.
  intros H x y F. induction F as [x y F N|j x y F1 I1 F2 I2 H1 H2 N]; [|eapply fill_elim; eauto]. apply fill_entry; auto. rewrite <- !H. auto.
Qed.

Lemma etree_parent_iff A B n v p : (forall i k, A i k <-> B i k) -> etree_parent A n v p -> etree_parent B n v p.
Proof.
  intros H. pose proof (fill_iff2 A B H) as F1. assert (F2 : forall x y, fill B x y -> fill A x y) by (apply fill_iff2; intros; symmetry; apply H).
  intros [[E G]|(k & E & G1 & G2 & G3 & G4)]; [left|right].
  - split; auto. intros k H1 H2 H3. apply (G k); auto.
  - exists k. splits; auto.
Qed.

Lemma wf_mat_rows m n Ap Ai : wf_mat m n Ap Ai -> wf_rows n Ap Ai.
Proof.
  intros (H1 & H2 & H3 & H4 & _). split; [lia|]. intros k Hk. split; [auto|]. apply Nat.le_trans with Ap.[n]; auto. apply (mono_le (aget Ap) n); auto; lia.
Qed.

(** The matrix that is built has the elimination tree of the stored symmetric matrix. *)
Theorem C85_elimination_tree : forall (T : Type) (DT : Dflt T) (zero : T) add ltb int_max sortp n Ap Ai stype,
  wf_mat n n Ap Ai -> 0 < n -> (stype <= 1)%Z ->
  exists par, length par = n /\ (forall v, v < n -> etree_parent (sym_adj n Ap Ai stype) n v par.[v]) /\
    forall stray cap ip ml dr (cost : list T),
      get_coarse_levelSet_DAG_CSC_tree zero add ltb int_max sortp stray cap n Ap Ai stype ip ml dr cost =
      get_coarse_levelSet_tree zero add ltb int_max sortp stray cap n par ip ml dr cost.
Proof.
  intros T DT zero add ltb im sp n Ap Ai stype W Hn Hs. pose proof W as (W1 & W2 & W3 & W4 & W5). unfold get_coarse_levelSet_DAG_CSC_tree.
  rewrite (rd_ok Ap n) by lia. cbn [bind]. set (A := mkCSC n n Ap.[n] true stype Ap Ai (@nil nat)).
  assert (MA : mat_ok A) by (split; [exact W|split; [apply Nat.le_refl|intros HH; discriminate HH]]).
  assert (G : stype <> 1%Z -> exists M, make_symmetric Nat.mul Nat.add 0 A false = Ok (false, Some M) /\ cm M = n /\ cn M = n /\ (0 < cst M)%Z /\
     wf_rows n (cp M) (ci M) /\ forall i k, below n (cp M) (ci M) i k <-> sym_adj n Ap Ai stype i k).
  { intros Hne. destruct (Z.eq_dec stype 0) as [E0|E0].
    - destruct (C84_make_symmetric_general nat _ Nat.mul Nat.add 0 A false MA eq_refl Hn E0) as (M & E & M1 & M2 & M3 & M4 & M5 & M6 & M7 & _). cbn [cm cn cp ci cx A] in *.
      exists M. splits; auto; [lia|now apply wf_mat_rows in M5|]. intros i k. unfold below, sym_adj. rewrite E0. cbn [Z.ltb Z.compare].
      split; intros (H1 & H2 & H3); splits; auto.
      + destruct (M7 k H2) as (_ & _ & M8). apply (entry_col (cp M) (ci M) (cx M)), M8 in H3. destruct H3 as (_ & [H3|(_ & H3)]); apply entry_col in H3; auto.
      + destruct (M7 k H2) as (_ & _ & M8). apply (entry_col (cp M) (ci M) (cx M)), M8. split; [lia|].
        destruct H3 as [H3|H3]; [right; split; [lia|now apply entry_col]|left; now apply entry_col].
    - destruct (C83_transpose_symmetric nat _ A MA eq_refl Hn E0) as (M & E & MM & M1 & M2 & M3 & M4 & M5 & M6 & M7 & _). cbn [cm cn cp ci cx cst A] in *.
      exists M. rewrite C84_make_symmetric_other by (cbn; lia). rewrite E. cbn [bind]. destruct MM as (MW & _). rewrite M1, M2 in MW.
      splits; auto; [lia|now apply wf_mat_rows in MW|]. intros i k. unfold below, sym_adj. replace (stype <? 0)%Z with true by lia. replace (0 <? stype)%Z with false in * by lia.
      assert (HR : k < n -> (entry (cp M) (ci M) k i <-> i <= k /\ i < n /\ entry Ap Ai i k)).
      { intros Hk. rewrite <- (entry_col (cp M) (ci M) (cx M)), (M7 k Hk), <- (entry_col Ap Ai (@nil nat)). split.
        - intros H. apply in_map_iff in H. destruct H as ([j v] & <- & H). apply filter_In in H. destruct H as [H1 H2]. apply row_of_In in H1. cbn [fst] in *.
          splits; try tauto; [lia|]. apply in_map_iff. exists (k, v). tauto.
        - intros (H1 & H2 & H3). apply in_map_iff in H3. destruct H3 as ([j v] & E1 & H3). cbn [fst] in E1. subst j. apply in_map_iff. exists (i, v). split; auto. apply filter_In. split; [now apply row_of_In|cbn [fst]; lia]. }
      split; intros (H1 & H2 & H3); splits; auto; apply HR in H3 || apply HR; auto; try tauto. splits; auto; lia. }
  destruct (Z.eq_dec stype 1) as [E1|E1].
  - destruct (C36_compute_etree_sym n n Ap Ai stype (repeat 0%Z n)) as (par & E & P1 & P2); [now apply wf_mat_rows in W|apply repeat_length|lia|lia|].
    exists par. splits; auto.
    + intros v Hv. apply (etree_parent_iff (below n Ap Ai)); auto. intros i k. unfold below, sym_adj. replace (stype <? 0)%Z with false by lia. now replace (0 <? stype)%Z with true by lia.
    + intros stray cap ip ml dr cost. replace (negb (stype =? 1)%Z) with false by lia. rewrite E. reflexivity.
  - destruct (G E1) as (M & E & M1 & M2 & M3 & M4 & M5).
    destruct (C36_compute_etree_sym n n (cp M) (ci M) (cst M) (repeat 0%Z n)) as (par & E2 & P1 & P2); auto; [apply repeat_length|].
    exists par. splits; auto.
    + intros v Hv. apply (etree_parent_iff (below n (cp M) (ci M))); auto.
    + intros stray cap ip ml dr cost. replace (negb (stype =? 1)%Z) with true by lia. rewrite E. cbn [bind]. rewrite M1, M2, E2. reflexivity.
Qed.
Print Assumptions C85_elimination_tree.

(** a schedule of E respects every chain of E *)
Lemma valid_closure n (E : nat -> nat -> Prop) no lp pp np : (forall u v, E u v -> v < n) -> valid_schedule n E no lp pp np ->
  valid_schedule n (fun u v => exists k, chain E u v (S k)) no lp pp np.
Proof.
  intros HB VS. pose proof VS as (A & B & C). split; [auto|split; [auto|]]. intros u v lu pu ku lv pv kv (k & Hc) Hlu Hlv Hu Hv.
  revert v lv pv kv Hc Hlv Hv. induction k as [|k IH]; intros v lv pv kv Hc Hlv Hv; inversion Hc as [|? x ? ? Hc' He]; subst.
  - inversion Hc'; subst. eapply C; eauto.
  - assert (Hx : x < n) by (inversion Hc'; subst; eauto). destruct (sch_exists n E no lp pp np VS x Hx) as (lx & px & kx & Hlx & Hax).
    specialize (IH x lx px kx Hc' Hlx Hax). specialize (C x v lx px kx lv pv kv He Hlx Hlv Hax Hv). lia.
Qed.

Lemma desc_chain n tree u v : desc n tree u v -> u < n -> u <> v -> exists k, chain (tree_edge n tree) u v (S k).
Proof.
  intros D. induction D as [u|u p v H1 H2 H3 IH]; intros Hu Hne; [easy|].
  assert (HE : tree_edge n tree u p) by (split; auto).
  destruct (Nat.eq_dec p v) as [->|Hp]; [exists 0; econstructor; eauto; constructor|]. destruct (IH H2 Hp) as [k Hk]. exists (S k).
  change (S (S k)) with (1 + S k). eapply chain_app; [|exact Hk]. econstructor; [constructor|exact HE].
Qed.

Lemma chain_prefix (E : nat -> nat -> Prop) u v a b : chain E u v (a + b) -> exists x, chain E u x a.
Proof.
  revert v. induction b as [|b IH]; intros v H; [rewrite Nat.add_0_r in H; eauto|]. rewrite Nat.add_succ_r in H. inversion H; subst. eauto.
Qed.

(** A matrix in which some row depends on a row that itself depends on a third one (in the factor, so in
    particular in the matrix): the call reads out of bounds, whatever the parameters. *)
Theorem C85_three_levels_out_of_bounds : forall (T : Type) (DT : Dflt T) (zero : T) add ltb int_max sortp n Ap Ai stype ip ml dr (cost : list T) i j k,
  (forall l, Permutation (sortp l) l) -> wf_mat n n Ap Ai -> (stype <= 1)%Z -> n <= length cost ->
  i < j -> j < k -> k < n -> fill (sym_adj n Ap Ai stype) i j -> fill (sym_adj n Ap Ai stype) j k ->
  get_coarse_levelSet_DAG_CSC_tree zero add ltb int_max sortp None n n Ap Ai stype ip ml dr cost = Err OOB.
Proof.
  intros T DT zero add ltb im sp n Ap Ai stype ip ml dr cost i j k SP W Hs HC H1 H2 H3 F1 F2.
  destruct (C85_elimination_tree T DT zero add ltb im sp n Ap Ai stype W ltac:(lia) Hs) as (par & P1 & P2 & P3). rewrite P3.
  assert (D1 : desc n par i j) by (apply (fill_desc (sym_adj n Ap Ai stype)); auto; lia). assert (D2 : desc n par j k) by (apply (fill_desc (sym_adj n Ap Ai stype)); auto).
  destruct (desc_chain n par i j D1) as [a C1]; [lia|lia|]. destruct (desc_chain n par j k D2) as [b C2]; [lia|lia|].
  pose proof (chain_app _ _ _ _ _ _ C1 C2) as C3. replace (S a + S b) with (2 + (a + b)) in C3 by lia. destruct (chain_prefix _ _ _ _ _ C3) as [x Cx].
  apply (C82_three_levels_out_of_bounds T DT zero add ltb im sp n par ip ml dr cost i x); auto; [|lia].
  apply forest_intro; [lia|]. now apply (etree_forest (sym_adj n Ap Ai stype)).
Qed.
Print Assumptions C85_three_levels_out_of_bounds.

(** If the stray reads yield values not above n and the part array is large enough, the schedule respects every
    dependence of the factor, so every dependence of the matrix. *)
Theorem C85_valid : forall (T : Type) (DT : Dflt T) (zero : T) add ltb int_max sortp stray cap n Ap Ai stype ip ml dr (cost : list T),
  (forall l, Permutation (sortp l) l) -> wf_mat n n Ap Ai -> (stype <= 1)%Z -> n <= length cost -> 2 <= n -> stray <= n ->
  (n < cap \/ (Z.max 1 (2 * ip - 1) < Z.of_nat cap)%Z) ->
  exists k lp pp np,
    get_coarse_levelSet_DAG_CSC_tree zero add ltb int_max sortp (Some stray) cap n Ap Ai stype ip ml dr cost = Ok (k, (lp, pp, np)) /\
    valid_schedule n (fun u v => u < v < n /\ fill (sym_adj n Ap Ai stype) u v) k lp pp np /\
    valid_schedule n (sym_adj n Ap Ai stype) k lp pp np /\ 1 <= k <= n /\ lp.[k] <= n /\ (Z.of_nat lp.[k] <= Z.max 1 (2 * ip - 1))%Z.
Proof.
  intros T DT zero add ltb im sp stray cap n Ap Ai stype ip ml dr cost SP W Hs HC Hn Hst Hcap.
  destruct (C85_elimination_tree T DT zero add ltb im sp n Ap Ai stype W ltac:(lia) Hs) as (par & P1 & P2 & P3). rewrite P3.
  assert (FO : forest n par) by (apply forest_intro; [lia|]; now apply (etree_forest (sym_adj n Ap Ai stype))).
  destruct (C82_valid T DT zero add ltb im sp stray cap n par ip ml dr cost SP FO HC Hn Hst Hcap) as (k & lp & pp & np & E & V1 & V2 & V3 & V4).
  assert (VF : valid_schedule n (fun u v => u < v < n /\ fill (sym_adj n Ap Ai stype) u v) k lp pp np).
  { apply valid_closure in V1; [|intros u v (_ & H & _); auto]. revert V1. apply valid_schedule_iff. intros u v [Huv F].
    apply desc_chain; [|lia|lia]. apply (fill_desc (sym_adj n Ap Ai stype)); auto; lia. }
  exists k, lp, pp, np. splits; auto; try lia. revert VF. apply valid_schedule_iff. intros u v (H1 & H2 & H3). splits; auto. apply fill_entry; [left; split; auto|lia].
Qed.
Print Assumptions C85_valid.

(** Without stray reads: no row depends on a row that depends on a third one. *)
Theorem C85_two_levels : forall (T : Type) (DT : Dflt T) (zero : T) add ltb int_max sortp n Ap Ai stype ip ml dr (cost : list T),
  (forall l, Permutation (sortp l) l) -> wf_mat n n Ap Ai -> (stype <= 1)%Z -> n <= length cost -> 2 <= n ->
  (forall i j k, i < j -> j < k -> k < n -> fill (sym_adj n Ap Ai stype) i j -> ~ fill (sym_adj n Ap Ai stype) j k) ->
  exists lp pp np,
    get_coarse_levelSet_DAG_CSC_tree zero add ltb int_max sortp None n n Ap Ai stype ip ml dr cost = Ok (1, (lp, pp, np)) /\
    valid_schedule n (sym_adj n Ap Ai stype) 1 lp pp np /\ lp.[1] = 1.
Proof.
  intros T DT zero add ltb im sp n Ap Ai stype ip ml dr cost SP W Hs HC Hn HF.
  destruct (C85_elimination_tree T DT zero add ltb im sp n Ap Ai stype W ltac:(lia) Hs) as (par & P1 & P2 & P3). rewrite P3.
  assert (FO : forest n par) by (apply forest_intro; [lia|]; now apply (etree_forest (sym_adj n Ap Ai stype))).
  assert (HE : forall u v, tree_edge n par u v -> u < v /\ fill (sym_adj n Ap Ai stype) u v).
  { intros u v (H1 & H2 & H3). destruct (P2 u H1) as [[E _]|(k & E & K1 & K2 & K3 & _)]; [lia|]. assert (k = v) by lia. subst k. auto. }
  destruct (C82_two_levels T DT zero add ltb im sp n par ip ml dr cost SP FO HC Hn) as (lp & pp & np & E & V1 & V2).
  { intros u v Hu Hc. inversion Hc as [|? x ? ? Hc' He]; subst. inversion Hc' as [|? y ? ? Hc2 He2]; subst. inversion Hc2; subst.
    destruct (HE _ _ He) as [A1 A2]. destruct (HE _ _ He2) as [A3 A4]. destruct He as (_ & ? & _). eapply HF; [exact A3|exact A1|auto|auto|auto]. }
  exists lp, pp, np. splits; auto. apply valid_closure in V1; [|intros u v (_ & H & _); auto]. revert V1. apply valid_schedule_iff. intros u v (H1 & H2 & H3).
  apply desc_chain; [|lia|lia]. apply (fill_desc (sym_adj n Ap Ai stype)); auto. apply fill_entry; [left; split; auto|lia].
Qed.
Print Assumptions C85_two_levels.

(** stype 2 and more: the matrix is deleted twice *)
Theorem C85_double_delete : forall (T : Type) (DT : Dflt T) (zero : T) add ltb int_max sortp stray cap n Ap Ai stype ip ml dr (cost : list T),
  wf_mat n n Ap Ai -> (1 < stype)%Z ->
  get_coarse_levelSet_DAG_CSC_tree zero add ltb int_max sortp stray cap n Ap Ai stype ip ml dr cost = Err OOB.
Proof.
  intros T DT zero add ltb im sp stray cap n Ap Ai stype ip ml dr cost W Hs. pose proof W as (W1 & _). unfold get_coarse_levelSet_DAG_CSC_tree.
  rewrite (rd_ok Ap n) by lia. cbn [bind]. replace (negb (stype =? 1)%Z) with true by lia.
  rewrite C84_make_symmetric_same by (cbn; lia). cbn [bind cm cn cp ci cst].
  destruct (C36_compute_etree_sym n n Ap Ai stype (repeat 0%Z n)) as (par & E & _); [now apply wf_mat_rows in W|apply repeat_length|lia|lia|]. rewrite E. reflexivity.
Qed.
Print Assumptions C85_double_delete.

(** The solver class SptrsvLBC, from the matrix to the solution: if the stray reads are harmless, the parallel
    solve gives the serial result for every interleaving. *)
Theorem C85_end_to_end : forall (V : Type) (DV : Dflt V) fms quo (T : Type) (DT : Dflt T) (zero : T) of_nat add ltb int_max sortp stray cap
    n Lp Li (Lx b : list V) stype lp cp ic,
  (forall l, Permutation (sortp l) l) -> lower_matrix n Lp Li Lx -> n <= length b -> (stype <= 0)%Z -> 2 <= n -> stray <= n ->
  (n < cap \/ (Z.max 1 (2 * lp - 1) < Z.of_nat cap)%Z) ->
  exists Rp Ri Rx P, csc_to_csr_arr n n Lp Li Lx = Ok (Rp, Ri, Rx) /\
    lbc_tree_prog zero of_nat add ltb int_max sortp (Some stray) cap n Lp Li stype Rp lp cp ic = Ok P /\
    same_as_serial fms quo n Rp Ri Rx b P /\ race_free fms quo Rp Ri Rx b P.
Proof.
  intros V DV fms quo T DT zero ofn add ltb im sp stray cap n Lp Li Lx b stype lp cp ic HS LM Hb Hst H2 Hs Hcap.
  pose proof LM as (W & D & LT & HX & Hn). destruct (csr_of_lower V DV n Lp Li Lx LM) as (Rp & Ri & Rx & E1 & LR & ED).
  pose proof LR as ((WR & _) & _). pose proof WR as (LRp & _).
  destruct (row_costs_ok zero ofn n Rp) as (cost & E2 & LC & _); [lia|].
  destruct (C85_valid T DT zero add ltb im sp stray cap n Lp Li stype lp cp ic cost HS) as (k & level_ptr & pp & np & E3 & _ & VS & Hk & L1 & L2); auto; try lia.
  assert (VN : valid_schedule n (row_dep n Rp Ri) k level_ptr pp np).
  { apply (valid_schedule_iff n _ (sym_adj n Lp Li stype)); auto. intros u v Huv. apply ED in Huv. pose proof (LT _ _ Huv) as Hlt. destruct Huv as (Hu & He & _).
    assert (Hv : v < n) by (destruct He as (q & Hq & <-); destruct W as (_ & _ & M & _ & B); apply B; pose proof (mono_le (aget Lp) n M (S u) n); lia).
    split; [auto|split; [auto|]]. destruct (stype <? 0)%Z; auto. now replace (0 <? stype)%Z with false by lia; left. }
  destruct (C29_lbc_solve_serial V DV fms quo n Rp Ri Rx b k level_ptr pp np) as (P & E5 & S1); auto.
  destruct (C30_solve_race_free V DV fms quo n Rp Ri Rx b k level_ptr pp np) as (P' & E5' & S2); auto.
  rewrite E5 in E5'. injection E5' as <-.
  exists Rp, Ri, Rx, P. splits; auto. unfold lbc_tree_prog. rewrite E2. cbn [bind]. rewrite E3. cbn [bind]. exact E5.
Qed.
Print Assumptions C85_end_to_end.

(** one row: the tree-level function writes out of bounds *)
Theorem C85_one_row_out_of_bounds : forall (T : Type) (DT : Dflt T) (zero : T) add ltb int_max sortp stray cap Ap Ai stype ip ml dr (cost : list T),
  wf_mat 1 1 Ap Ai -> (stype <= 1)%Z ->
  get_coarse_levelSet_DAG_CSC_tree zero add ltb int_max sortp stray cap 1 Ap Ai stype ip ml dr cost = Err OOB.
Proof.
  intros T DT zero add ltb im sp stray cap Ap Ai stype ip ml dr cost W Hs.
  destruct (C85_elimination_tree T DT zero add ltb im sp 1 Ap Ai stype W ltac:(lia) Hs) as (par & P1 & P2 & P3). rewrite P3.
  apply (C82_small_out_of_bounds T DT zero add ltb im sp stray cap 1); [|apply Nat.le_refl]. apply forest_intro; [lia|]. now apply (etree_forest (sym_adj 1 Ap Ai stype)).
Qed.
Print Assumptions C85_one_row_out_of_bounds.

(** a lower triangular matrix with the dependences 0 -> 2, 0 -> 3, 1 -> 3, 2 -> 4 (fill 2 - 3) *)
Definition cexp := [0; 3; 5; 7; 8; 9].
Definition cexi := [0; 2; 3; 1; 3; 2; 4; 3; 4].
Definition run_csc_tree stray stype ip := get_coarse_levelSet_DAG_CSC_tree 0 Nat.add Nat.ltb 1000 id_sort stray 5 5 cexp cexi stype ip 1 2 (repeat 1 5).
Example C85_case : lower_matrix 5 cexp cexi (repeat 1%Z 9) /\
  fill (sym_adj 5 cexp cexi (-1)) 0 2 /\ fill (sym_adj 5 cexp cexi (-1)) 2 4 /\ (Z.max 1 (2 * 2 - 1) < 5)%Z /\
  run_csc_tree None (-1) 2 = Err OOB /\ run_csc_tree None 0 2 = Err OOB /\
  (exists r, run_csc_tree (Some 0) (-1) 2 = Ok r) /\ run_csc_tree (Some 0) (-1) 2 = run_csc_tree (Some 0) 0 2.
Proof.
  split; [unfold lower_matrix; splits; [now apply wf_cscb_ok|apply one_diag_of_first; now apply diag_firstb_ok|now apply lower_trib_ok|vm_compute; lia|lia]|].
  split; [apply fill_entry; [left|lia]; split; [lia|split; [lia|exists 1; split; [vm_compute; lia|reflexivity]]]|].
  split; [apply fill_entry; [left|lia]; split; [lia|split; [lia|exists 6; split; [vm_compute; lia|reflexivity]]]|].
  splits; try (vm_compute; reflexivity); try lia. eexists. vm_compute. reflexivity.
Qed.
(** and one without fill: 0 -> 2, 1 -> 2 *)
Example C85_two_levels_case : exists lp pp np,
  get_coarse_levelSet_DAG_CSC_tree 0 Nat.add Nat.ltb 1000 id_sort None 3 3 [0; 2; 4; 5] [0; 2; 1; 2; 2] (-1) 2 1 2 (repeat 1 3) = Ok (1, (lp, pp, np)).
Proof. do 3 eexists. vm_compute. reflexivity. Qed.
