(** End-to-end properties of the solver pipelines (C32, C61 .. C63). *)
From Coq Require Import ZifyBool ZifyNat.
From Verif Require Import Base Lib Lib2 Lib3 Spec SpecSolve SpecGroup SpecMat Check CheckS CheckG
  M_LevelSet M_Sched M_HDAGG M_Group M_Sparse M_Cost M_SpTRSV M_Mat M_Pipeline
  L_Sched L_SpTRSV L_SpTRSV2 P_LevelSet P_HDAGG P_SpTRSV P_Mat P_Group P_Sparse P_Cost L_Sparse4.

(** a lower triangular matrix with its diagonal, by columns *)
Definition lower_matrix {V} (n : nat) (Lp Li : list nat) (Lx : list V) : Prop :=
  wf_csc n Lp Li /\ one_diag n Lp Li /\ lower_tri n Lp Li /\ Lp.[n] <= length Lx /\ 0 < n.

(** * From columns to rows *)

Lemma filter_flat_map {A B} (p : B -> bool) (f : A -> list B) l : filter p (flat_map f l) = flat_map (fun x => filter p (f x)) l.
Proof. induction l as [|a l IH]; simpl; auto. now rewrite filter_app, IH. Qed.

Lemma filter_len1 {A} `{Dflt A} (p : A -> bool) (l : list A) i j : length (filter p l) <= 1 -> i < j -> j < length l -> p l.[i] = true -> p l.[j] = true -> False.
Proof.
  revert i j. induction l as [|x l IH]; intros i j HL Hij Hj Hi Hpj; simpl in *; [lia|].
  destruct j as [|j]; [lia|]. rewrite aget_cons_S in Hpj. destruct i as [|i].
  - rewrite aget_cons_0 in Hi. rewrite Hi in HL. simpl in HL.
    assert (In l.[j] (filter p l)) by (apply filter_In; split; auto; apply aget_In; lia). destruct (filter p l); simpl in *; [contradiction|lia].
  - rewrite aget_cons_S in Hi. apply (IH i j); auto; try lia. destruct (p x); simpl in *; lia.
Qed.

Lemma filter_all_eq {A} (p : A -> bool) (l : list A) x : NoDup l -> (forall y, In y l -> p y = true -> y = x) -> length (filter p l) <= 1.
Proof.
  intros ND HP. assert (K : NoDup (filter p l)) by now apply NoDup_filter.
  destruct (filter p l) as [|a [|b t]] eqn:E; simpl; try lia. exfalso.
  assert (Ia : In a (filter p l)) by (rewrite E; simpl; auto). assert (Ib : In b (filter p l)) by (rewrite E; simpl; auto).
  apply filter_In in Ia, Ib. assert (a = b) by (rewrite (HP a), (HP b); tauto). subst b.
  inversion K as [|? ? K1 _]. apply K1. simpl. auto.
Qed.

Lemma row_diag_count {V} (n : nat) (cols : nat -> list (nat * V)) r :
  length (filter (fun e => fst e =? r) (row_of n cols r)) <= length (filter (fun e => fst e =? r) (cols r)).
Proof.
  unfold row_of. rewrite filter_flat_map.
  assert (G : forall l, NoDup l -> length (flat_map (fun x => filter (fun e : nat * V => fst e =? r)
     (map (fun e => (x, snd e)) (filter (fun e => fst e =? r) (cols x)))) l) <= length (filter (fun e => fst e =? r) (cols r)) /\
     (~ In r l -> flat_map (fun x => filter (fun e : nat * V => fst e =? r) (map (fun e => (x, snd e)) (filter (fun e => fst e =? r) (cols x)))) l = [])).
  { assert (K : forall x (l : list (nat * V)), x <> r -> filter (fun e : nat * V => fst e =? r) (map (fun e => (x, snd e)) l) = []).
    { intros x l Hx. induction l as [|e l IH]; simpl; auto. destruct (Nat.eqb_spec x r); [contradiction|auto]. }
    assert (K2 : forall (p : nat * V -> bool) l, length (filter p l) <= length l).
    { intros p l. induction l as [|e l IH]; simpl; auto. destruct (p e); simpl; lia. }
    induction 1 as [|x l Hx Hl (IH1 & IH2)]; simpl; [split; [lia|auto]|]. destruct (Nat.eq_dec x r) as [->|Hn].
    - split; [|tauto]. rewrite (IH2 Hx), app_nil_r. etransitivity; [apply K2|]. now rewrite map_length.
    - rewrite K by auto. simpl. split; [exact IH1|]. intros Hr. apply IH2. tauto. }
  apply G. apply seq_NoDup.
Qed.

Section Rows.
Context {V : Type} {DV : Dflt V}.
Variables (n : nat) (Lp Li : list nat) (Lx : list V) (Rp Ri : list nat) (Rx : list V).
Hypothesis W : wf_csc n Lp Li.
Hypothesis HD : one_diag n Lp Li.
Hypothesis HT : lower_tri n Lp Li.
Hypothesis WR : wf_mat n n Rp Ri.
Hypothesis HC : forall r, r < n -> col Rp Ri Rx r = row_of n (col Lp Li Lx) r.
Hypothesis HN : forall r, r < n -> nondecreasing (col Rp Ri Rx r).
Hypothesis HI : forall r c v, r < n -> (In (c, v) (col Rp Ri Rx r) <-> c < n /\ In (r, v) (col Lp Li Lx c)).

Lemma In_col {U} `{Dflt U} (Ap Ai : list nat) (Ax : list U) c r x : In (r, x) (col Ap Ai Ax c) <-> exists k, Ap.[c] <= k < Ap.[S c] /\ Ai.[k] = r /\ Ax.[k] = x.
Proof.
  unfold col. rewrite in_map_iff. split.
  - intros (k & E & Hk). injection E as <- <-. apply in_seq in Hk. exists k. splits; auto; lia.
  - intros (k & Hk & <- & <-). exists k. split; auto. apply in_seq. lia.
Qed.

Lemma nondecr_aget {U} `{Dflt U} (l : list (nat * U)) : nondecreasing l -> forall i j, i < j -> j < length l -> fst l.[i] <= fst l.[j].
Proof.
  induction l as [|e l IH]; simpl; [intros; lia|]. intros (H1 & H2) i j Hij Hj. destruct j as [|j]; [lia|]. rewrite aget_cons_S.
  destruct i as [|i]; [rewrite aget_cons_0; apply H1, aget_In; lia|rewrite aget_cons_S; apply IH; auto; lia].
Qed.

Lemma row_entry r j : r < n -> Rp.[r] <= j < Rp.[S r] -> Ri.[j] < n /\ entry Lp Li Ri.[j] r /\ Ri.[j] <= r.
Proof.
  intros Hr Hj. assert (Hin : In (Ri.[j], Rx.[j]) (col Rp Ri Rx r)) by (apply In_col; exists j; auto).
  apply HI in Hin; auto. destruct Hin as (Hc & Hin). apply In_col in Hin. destruct Hin as (k & Hk & E & _).
  splits; auto; [exists k; auto|]. destruct (Nat.eq_dec Ri.[j] r); [lia|]. assert (Ri.[j] < r); [|lia]. apply HT. split; [auto|split; [exists k; auto|auto]].
Qed.

Lemma row_last r : r < n -> Rp.[r] < Rp.[S r] /\ Ri.[Rp.[S r] - 1] = r /\ forall j, Rp.[r] <= j < Rp.[S r] - 1 -> Ri.[j] < r.
Proof.
  intros Hr. destruct (HD r Hr) as (k & (Hk & Ek) & Uk).
  assert (Hin : In (r, Lx.[k]) (col Rp Ri Rx r)) by (apply HI; auto; split; auto; apply In_col; exists k; auto).
  apply In_col in Hin. destruct Hin as (j0 & Hj0 & E0 & _).
  assert (HL : length (col Rp Ri Rx r) = Rp.[S r] - Rp.[r]) by (unfold col; now rewrite map_length, seq_length).
  assert (HG : forall j, Rp.[r] <= j < Rp.[S r] -> (col Rp Ri Rx r).[j - Rp.[r]] = (Ri.[j], Rx.[j])).
  { intros j Hj. unfold col. rewrite aget_map by (rewrite seq_length; lia). rewrite aget_seq by lia. replace (Rp.[r] + (j - Rp.[r])) with j by lia. reflexivity. }
  assert (HLast : Ri.[Rp.[S r] - 1] = r).
  { pose proof (row_entry r (Rp.[S r] - 1) Hr ltac:(lia)) as (_ & _ & Hle).
    destruct (Nat.eq_dec j0 (Rp.[S r] - 1)) as [<-|Hne]; auto.
    pose proof (nondecr_aget _ (HN r Hr) (j0 - Rp.[r]) (Rp.[S r] - 1 - Rp.[r]) ltac:(lia) ltac:(lia)) as Hd.
    rewrite !HG in Hd by lia. simpl in Hd. lia. }
  splits; auto; [lia|]. intros j Hj. pose proof (row_entry r j Hr ltac:(lia)) as (_ & _ & Hle).
  destruct (Nat.eq_dec Ri.[j] r) as [Ej|]; [|lia]. exfalso.
  apply (filter_len1 (fun e : nat * V => fst e =? r) (col Rp Ri Rx r) (j - Rp.[r]) (Rp.[S r] - 1 - Rp.[r])).
  - rewrite HC by auto. etransitivity; [apply row_diag_count|]. unfold col.
    assert (EF : forall l, length (filter (fun e : nat * V => fst e =? r) (map (fun k => (Li.[k], Lx.[k])) l)) = length (filter (fun k => Li.[k] =? r) l)).
    { intros l. induction l as [|x l IH]; simpl; auto. destruct (Li.[x] =? r); simpl; now rewrite IH. }
    rewrite EF. apply (filter_all_eq _ _ k); [apply seq_NoDup|]. intros y Hy Ey. apply in_seq in Hy. apply Uk; lia.
  - lia.
  - lia.
  - rewrite HG by lia. simpl. lia.
  - rewrite HG by lia. simpl. lia.
Qed.

Lemma rows_of_lower : Rp.[n] <= length Rx -> lower_rows n Rp Ri Rx /\ forall u v, row_dep n Rp Ri u v <-> edge n Lp Li u v.
Proof.
  intros HX. split.
  - unfold lower_rows, wf_rows, rows_lower. splits; auto.
    + intros i Hi. now apply row_last.
    + intros u v (Hv & j & Hj & <-). now apply row_last.
  - intros u v. split.
    + intros (Hv & j & Hj & <-). pose proof (row_last v Hv) as (H1 & H2 & H3). specialize (H3 j Hj).
      destruct (row_entry v j Hv ltac:(lia)) as (E1 & E2 & E3). split; [auto|split; [auto|lia]].
    + intros He. destruct (wf_edge_lt n Lp Li W u v He) as (Hu & Hv). destruct He as (_ & (k & Hk & Ek) & Hne).
      split; auto. assert (Hin : In (u, Lx.[k]) (col Rp Ri Rx v)) by (apply HI; auto; split; auto; apply In_col; exists k; auto).
      apply In_col in Hin. destruct Hin as (j & Hj & Ej & _). exists j. split; auto.
      pose proof (row_last v Hv) as (H1 & H2 & _). destruct (Nat.eq_dec j (Rp.[S v] - 1)) as [->|]; [congruence|lia].
Qed.
End Rows.

(** the rows of the matrix are what the row solvers expect, and depend on each other as
    the columns say *)
Theorem csr_of_lower :
  forall (V : Type) (DV : Dflt V) n Lp Li (Lx : list V), lower_matrix n Lp Li Lx ->
  exists Rp Ri Rx, csc_to_csr_arr n n Lp Li Lx = Ok (Rp, Ri, Rx) /\ lower_rows n Rp Ri Rx /\
    forall u v, row_dep n Rp Ri u v <-> edge n Lp Li u v.
Proof.
  intros V DV n Lp Li Lx (W & HD & HT & HX & Hn).
  destruct (C33_csc_to_csr_exact V DV n n Lp Li Lx W HX) as (Rp & Ri & Rx & E & WR & EN & L1 & L2 & L3 & HC & HN & HI).
  exists Rp, Ri, Rx. split; auto. apply (rows_of_lower n Lp Li Lx Rp Ri Rx); auto. lia.
Qed.

Lemma valid_schedule_iff n (E E' : nat -> nat -> Prop) no lp pp np : (forall u v, E u v -> E' u v) -> valid_schedule n E' no lp pp np -> valid_schedule n E no lp pp np.
Proof. intros HE (A & B & C). split; [auto|split; [auto|]]. intros u v lu pu ku lv pv kv He. apply C. auto. Qed.

Lemma tri_chain n Lp Li u v k : lower_tri n Lp Li -> chain (edge n Lp Li) u v k -> u + k <= v.
Proof. intros HT. induction 1 as [|u v w k Hc IH He]; [lia|]. specialize (HT _ _ He). lia. Qed.

Lemma tri_acyclic n Lp Li : lower_tri n Lp Li -> acyclic (edge n Lp Li).
Proof. intros HT u k Hc. apply (tri_chain n Lp Li) in Hc; auto. lia. Qed.

(** wavefronts of a graph that is not one chain *)
Lemma wavefronts n Lp Li : dag_input n Lp Li ->
  exists k ptr lset, computingLevelSet_CSC n Lp Li [] [] = Ok (Z.of_nat k, (ptr, lset)) /\
    level_partition n k ptr lset /\ level_ordered (edge n Lp Li) k ptr lset /\ k < length ptr /\ n <= length lset.
Proof.
  intros DI. pose proof DI as (W & D & _ & _). destruct (HDAGG_levels n Lp Li DI) as (k & ptr & lset & n2l & E & HX & L1 & L2 & L3).
  destruct (C04_variants_agree n Lp Li [] [] _ _ _ _ _ E) as (_ & _ & E2).
  exists k, ptr, lset. splits; auto; [apply HX|].
  destruct (C01_levelset_partition_order n Lp Li (repeat 0 (n + 1)) (repeat 0 n) (repeat 0 n) W D) as (k' & ptr' & ls' & n2l' & E' & HO);
    rewrite ?repeat_length; try lia.
  { rewrite aget_repeat; auto. lia. }
  rewrite E in E'. injection E' as <- <- <- <-. specialize (HO ltac:(lia)). rewrite Nat2Z.id in HO. apply HO.
Qed.

Lemma no_wavefronts n Lp Li : wf_csc n Lp Li -> one_diag n Lp Li -> 0 < n -> visits_all n (edge n Lp Li) ->
  exists ptr lset, computingLevelSet_CSC n Lp Li [] [] = Ok ((-1)%Z, (ptr, lset)).
Proof.
  intros W D Hn HV. destruct (C04_computingLevelSet n Lp Li [] [] W D eq_refl) as (k & ptr & lset & E & (_ & H) & _).
  exists ptr, lset. rewrite E. rewrite H; auto.
Qed.

(** * C61: wavefront solver *)

Theorem C61_wavefront_end_to_end :
  forall (V : Type) (DV : Dflt V) fms quo n Lp Li (Lx b : list V), lower_matrix n Lp Li Lx -> n <= length b ->
  ~ visits_all n (edge n Lp Li) ->
  exists Rp Ri Rx P, csc_to_csr_arr n n Lp Li Lx = Ok (Rp, Ri, Rx) /\ wavefront_prog n Lp Li = Ok P /\
    same_as_serial fms quo n Rp Ri Rx b P /\ race_free fms quo Rp Ri Rx b P.
Proof.
  intros V DV fms quo n Lp Li Lx b LM Hb HV. pose proof LM as (W & D & HT & _ & Hn).
  destruct (csr_of_lower V DV n Lp Li Lx LM) as (Rp & Ri & Rx & E & LR & HR).
  destruct (wavefronts n Lp Li) as (k & ptr & lset & E2 & LP & LO & L1 & L2).
  { unfold dag_input. splits; auto; [now apply tri_acyclic|tauto]. }
  assert (LO' : level_ordered (row_dep n Rp Ri) k ptr lset).
  { intros u v lu lv He. apply LO. now apply HR. }
  destruct (C28_levelset_solve_serial V DV fms quo n Rp Ri Rx b k ptr lset LR Hb LP LO' L1 L2) as (P & EP & S1).
  destruct (C30_levelset_race_free V DV fms quo n Rp Ri Rx b k ptr lset LR Hb LP LO' L1 L2) as (P' & EP' & S2).
  rewrite EP in EP'. injection EP' as <-. exists Rp, Ri, Rx, P. splits; auto.
  unfold wavefront_prog. rewrite E2. cbn [bind]. now rewrite Nat2Z.id.
Qed.
Print Assumptions C61_wavefront_end_to_end.

(** * C62: on a single chain the wavefront solver does nothing *)

Theorem C62_chain_not_solved :
  forall (V : Type) (DV : Dflt V) fms quo n Lp Li (Lx : list V) Rp Ri (Rx b : list V), lower_matrix n Lp Li Lx ->
  visits_all n (edge n Lp Li) ->
  exists P, wavefront_prog n Lp Li = Ok P /\ forall x', x_exec fms quo Rp Ri Rx P b x' -> x' = b.
Proof.
  intros V DV fms quo n Lp Li Lx Rp Ri Rx b (W & D & HT & _ & Hn) HV.
  destruct (no_wavefronts n Lp Li W D Hn HV) as (ptr & lset & E). exists []. split.
  - unfold wavefront_prog. rewrite E. reflexivity.
  - intros x' (l & ths & Hs & _).
    assert (G : forall s s', x_steps fms quo Rp Ri Rx [] s s' -> s' = s).
    { induction 1 as [|s s' s'' Hs1 IH Hst]; auto. destruct Hst; simpl in *; lia. }
    apply G in Hs. injection Hs as _ _ ->. reflexivity.
Qed.
Print Assumptions C62_chain_not_solved.

(** diag(1,1) with a 1 below the diagonal, right-hand side (1,2): the solution is (1,1), the
    solver leaves (1,2) *)
Theorem C62_wavefront_refuted :
  ~ (forall n Lp Li (Lx b : list Z) Rp Ri Rx P y x', lower_matrix n Lp Li Lx -> n <= length b ->
     csc_to_csr_arr n n Lp Li Lx = Ok (Rp, Ri, Rx) -> wavefront_prog n Lp Li = Ok P ->
     sptrsv_csr (fun a l d => (a - l * d)%Z) Z.div Rp Ri Rx n b = Ok y ->
     x_exec (fun a l d => (a - l * d)%Z) Z.div Rp Ri Rx P b x' -> x' = y).
Proof.
  intros H. specialize (H 2 [0;2;3] [0;1;1] [1;1;1]%Z [1;2]%Z [0;1;3] [0;0;1] [1;1;1]%Z [] [1;1]%Z [1;2]%Z).
  assert (K : [1;2]%Z = [1;1]%Z); [|discriminate]. apply H; try (vm_compute; reflexivity).
  - unfold lower_matrix. splits; [now apply wf_cscb_ok|apply one_diag_of_first; now apply diag_firstb_ok|now apply lower_trib_ok|vm_compute; lia|lia].
  - exists 0, (enter [] 0). split; [constructor|reflexivity].
Qed.
Print Assumptions C62_wavefront_refuted.

(** * C32: HDAGG *)

Lemma wf_rows_lengths {V} n Rp Ri (Rx : list V) : lower_rows n Rp Ri Rx -> wf_csc n Rp Ri /\ forall v, v < n -> Rp.[v] < Rp.[S v].
Proof. intros ((WR & HR) & _). auto. Qed.

Theorem C32_hdagg_end_to_end :
  forall (V : Type) (DV : Dflt V) fms quo below accept junk n Lp Li (Lx b : list V) cores bin_pack,
  lower_matrix n Lp Li Lx -> n <= length b -> ~ visits_all n (edge n Lp Li) -> 1 <= cores -> rounding_ok below ->
  exists Rp Ri Rx P, csc_to_csr_arr n n Lp Li Lx = Ok (Rp, Ri, Rx) /\
    hdagg_prog below accept junk n Lp Li Rp Ri cores bin_pack = Ok P /\
    same_as_serial fms quo n Rp Ri Rx b P /\ race_free fms quo Rp Ri Rx b P.
Proof.
  intros V DV fms quo below accept junk n Lp Li Lx b cores bp LM Hb HV HC HB. pose proof LM as (W & D & HT & _ & Hn).
  destruct (csr_of_lower V DV n Lp Li Lx LM) as (Rp & Ri & Rx & E & LR & HR).
  destruct (wf_rows_lengths n Rp Ri Rx LR) as (WR & HR1).
  destruct (C27_node_costs n Lp Li Rp Ri SpTrSv_LL [] [] (repeat 0 n) W WR) as (c & EC & LC & VC).
  { destruct n; [lia|discriminate]. }
  assert (PC : positive_costs n c).
  { intros v Hv. rewrite VC by auto. unfold node_cost. specialize (HR1 v Hv). lia. }
  destruct (C14_HDAGG_valid below accept junk n Lp Li c cores false bp) as (WM & no & lp & pp & np & EH & _ & VS); auto; try lia.
  { unfold dag_input. splits; auto; [now apply tri_acyclic|tauto]. }
  { destruct (Nat.eq_dec cores 1); [right; auto|left; lia]. }
  apply (valid_schedule_iff n (row_dep n Rp Ri)) in VS; [|intros u v; apply HR].
  destruct (C29_lbc_solve_serial V DV fms quo n Rp Ri Rx b no lp pp np LR Hb VS) as (P & EP & S1).
  destruct (C30_solve_race_free V DV fms quo n Rp Ri Rx b no lp pp np LR Hb VS) as (P' & EP' & S2).
  rewrite EP in EP'. injection EP' as <-. exists Rp, Ri, Rx, P. splits; auto.
  unfold hdagg_prog. rewrite EC. cbn [bind]. rewrite EH. cbn [bind]. exact EP.
Qed.
Print Assumptions C32_hdagg_end_to_end.

Example C32_case : lower_matrix 6 ex6Lp ex6Li (repeat 1%Z 10) /\ ~ visits_all 6 (edge 6 ex6Lp ex6Li) /\
  (exists P, hdagg_prog below_exact (fun _ it => it <=? 2) 0 6 ex6Lp ex6Li [0;1;2;4;6;9;10] [0; 1; 0;2; 1;3; 2;3;4; 5] 2 true = Ok P /\ length P = 2).
Proof.
  destruct C14_case as (W & DF & HT & HV & _). splits.
  - unfold lower_matrix. splits; auto; [now apply one_diag_of_first|lia].
  - intros H. apply HV. split; auto. lia.
  - eexists. split; [vm_compute; reflexivity|reflexivity].
Qed.

(** * C63: the tree-grouped pipelines *)

Lemma level_member n k ptr lset x : level_partition n k ptr lset -> x < n -> exists l, l < k /\ in_level ptr lset l x.
Proof.
  intros (P0 & Pm & Pk & Pb & Pi) Hx. destruct (inj_onto n (aget lset) Pb Pi x Hx) as (i & Hi & Ei).
  destruct (bucket_exists (aget ptr) k i) as (l & Hl & Hil); try lia. exists l. split; auto. exists i. auto.
Qed.

Lemma level_member_lt n k ptr lset l x : level_partition n k ptr lset -> l < k -> in_level ptr lset l x -> x < n.
Proof.
  intros (P0 & Pm & Pk & Pb & Pi) Hl (i & Hi & <-). apply Pb. assert (ptr.[S l] <= ptr.[k]) by (apply (mono_le (aget ptr) k); auto; lia). lia.
Qed.

Lemma level_member_unique n k ptr lset l l' x : level_partition n k ptr lset -> l < k -> l' < k -> in_level ptr lset l x -> in_level ptr lset l' x -> l = l'.
Proof.
  intros (P0 & Pm & Pk & Pb & Pi) Hl Hl' (i & Hi & Ei) (j & Hj & Ej).
  assert (ptr.[S l] <= ptr.[k]) by (apply (mono_le (aget ptr) k); auto; lia).
  assert (ptr.[S l'] <= ptr.[k]) by (apply (mono_le (aget ptr) k); auto; lia).
  assert (i = j) by (apply Pi; try lia; congruence). subst j. apply (bucket_unique (aget ptr) k l l' i); auto.
Qed.

(** paths in a graph lead to later wavefronts of its group graph *)
Lemma group_levels n ng gp gs (E' : nat -> nat -> Prop) k lp ls : (forall u v, E' u v -> u < n /\ v < n) -> grouping n ng gp gs ->
  level_partition ng k lp ls -> level_ordered (quotient E' ng gp gs) k lp ls ->
  forall u v m, chain E' u v m -> forall g h lg lh, g < ng -> h < ng -> lg < k -> lh < k ->
    in_level gp gs g u -> in_level gp gs h v -> in_level lp ls lg g -> in_level lp ls lh h -> g = h \/ lg < lh.
Proof.
  intros HB (_ & _ & GP & _) LP LO u v m Hc. induction Hc as [u|u v w m Hc IH He]; intros g h lg lh Hg Hh Hlg Hlh Iu Iw Ig Ih.
  - left. exact (level_member_unique n ng gp gs g h u GP Hg Hh Iu Iw).
  - destruct (HB _ _ He) as (Bv & Bw). destruct (level_member n ng gp gs v GP Bv) as (f & Hf & If).
    destruct (level_member ng k lp ls f LP Hf) as (lf & Hlf & Ilf).
    destruct (IH g f lg lf) as [<-|H1]; auto.
    + assert (lf = lg) by exact (level_member_unique ng k lp ls lf lg g LP Hlf Hlg Ilf Ig). subst lf.
      destruct (Nat.eq_dec g h); auto. right. eapply (LO g h); eauto. unfold quotient. splits; auto. exists v, w. auto.
    + destruct (Nat.eq_dec f h) as [->|Hn].
      * assert (lf = lh) by exact (level_member_unique ng k lp ls lf lh h LP Hlf Hlh Ilf Ih). lia.
      * assert (lf < lh); [|lia]. eapply (LO f h); eauto. unfold quotient. splits; auto. exists v, w. auto.
Qed.

(** what the common part of the tree pipelines returns *)
Definition tree_dag (n : nat) (Lp Li : list nat) (ng : nat) (gp gs p s : list nat) : Prop :=
  grouping n ng gp gs /\ 0 < ng /\ wf_csc ng p s /\ one_diag ng p s /\ acyclic (edge ng p s) /\
  exists dp ds, sparsified n Lp Li dp ds /\ lower_tri n dp ds /\ forall g h, edge ng p s g h <-> quotient (edge n dp ds) ng gp gs g h.

Lemma tree_groups_of_ok bins sched n nnz Lp Li : wf_csc n Lp Li -> diag_first n Lp Li -> lower_tri n Lp Li -> 0 < n -> 0 < bins ->
  exists ng gp gs p s, tree_groups_of true bins sched n nnz Lp Li = Ok (ng, gp, gs, p, s) /\ tree_dag n Lp Li ng gp gs p s.
Proof.
  intros W DF HT Hn HB.
  destruct (C25_sparsification_clique bins sched n nnz Lp Li W DF HT Hn HB) as (dp & ds & E1 & SP).
  pose proof SP as (S1 & S2 & S3 & S4 & S5 & S6 & S7).
  assert (DT : lower_tri n dp ds) by (intros u v He; apply HT; auto).
  assert (TI : tri_input n dp ds) by (unfold tri_input; splits; auto; now apply one_diag_of_first).
  destruct (C20_tree_grouping n n dp ds TI Hn) as (ng & gp & gs & E2 & GR & _).
  pose proof (C21_tree_quotient_acyclic n n dp ds ng gp gs TI Hn (or_introl E2)) as AQ.
  destruct (C19_group_dag_exact n dp ds ng gp gs S1 GR) as (p & s & E3 & (X1 & X2 & X3 & X4 & X5) & X6 & X7).
  exists ng, gp, gs, p, s. split.
  - unfold tree_groups_of. rewrite E1. cbn [bind]. rewrite E2. cbn [bind]. rewrite E3. reflexivity.
  - unfold tree_dag. splits; auto.
    + destruct GR as (_ & _ & (P0 & Pm & Pk & _) & _). destruct ng; [lia|lia].
    + apply X7. now apply one_diag_of_first.
    + intros u k Hc. apply (AQ u k).
      assert (G : forall u v k, chain (edge ng p s) u v k -> chain (quotient (edge n dp ds) ng gp gs) u v k).
      { induction 1; econstructor; eauto. now apply X6. }
      now apply G.
    + exists dp, ds. splits; auto.
Qed.

Theorem C63_tree_hdagg_end_to_end :
  forall (V : Type) (DV : Dflt V) fms quo below accept junk bins sched n nnz Lp Li (Lx b : list V) cores bin_pack,
  lower_matrix n Lp Li Lx -> diag_first n Lp Li -> n <= length b -> 1 <= cores -> 0 < bins -> rounding_ok below ->
  exists Rp Ri Rx ng gp gs p s, csc_to_csr_arr n n Lp Li Lx = Ok (Rp, Ri, Rx) /\
    tree_groups_of true bins sched n nnz Lp Li = Ok (ng, gp, gs, p, s) /\ tree_dag n Lp Li ng gp gs p s /\
    (~ visits_all ng (edge ng p s) ->
       exists P, tree_hdagg_prog below accept junk true bins sched n nnz Lp Li Rp Ri cores bin_pack = Ok P /\
         same_as_serial fms quo n Rp Ri Rx b P /\ race_free fms quo Rp Ri Rx b P) /\
    (visits_all ng (edge ng p s) -> tree_hdagg_prog below accept junk true bins sched n nnz Lp Li Rp Ri cores bin_pack = Err Throw).
Proof.
  intros V DV fms quo below accept junk bins sched n nnz Lp Li Lx b cores bp LM DF Hb HC HB HR. pose proof LM as (W & D & HT & _ & Hn).
  destruct (csr_of_lower V DV n Lp Li Lx LM) as (Rp & Ri & Rx & E & LR & HRD).
  destruct (wf_rows_lengths n Rp Ri Rx LR) as (WR & HR1).
  destruct (tree_groups_of_ok bins sched n nnz Lp Li W DF HT Hn HB) as (ng & gp & gs & p & s & ET & TD).
  exists Rp, Ri, Rx, ng, gp, gs, p, s. split; [auto|]. split; [auto|]. split; [auto|].
  destruct TD as (GR & Hng & WQ & DQ & AQ & dp & ds & SP & DT & QE).
  destruct (C27_node_costs n Lp Li Rp Ri SpTrSv_LL gp gs [0] W WR ltac:(discriminate)) as (c0 & EC0 & LC0 & VC0).
  destruct (C27_group_costs_are_sums n Lp Li Rp Ri SpTrSv_LL ng gp gs [0] (repeat 0 ng) c0 W WR GR) as (c & EC & LC & VC & _); auto; try discriminate.
  { destruct ng; [lia|discriminate]. }
  assert (PC : positive_costs ng c).
  { intros g Hg. rewrite VC by auto. destruct GR as (_ & _ & (P0 & Pm & Pk & Pb & Pi) & GN). specialize (GN g Hg).
    assert (gp.[S g] <= gp.[ng]) by (apply (mono_le (aget gp) ng); auto; lia).
    pose proof (sum_r_ge_one gp.[g] gp.[S g] (fun i => c0.[gs.[i]]) gp.[g] ltac:(lia)) as K. cbv beta in K.
    specialize (Pb gp.[g] ltac:(lia)). rewrite VC0 in K by auto. unfold node_cost in K. specialize (HR1 _ Pb). lia. }
  unfold tree_hdagg_prog. rewrite ET. cbn [bind]. rewrite EC. cbn [bind]. split.
  - intros HV.
    destruct (C14_HDAGG_parts below accept junk ng p s c cores false bp) as (WM & no & lp & pp & np & EH & _ & PS); auto; try lia.
    { unfold dag_input. splits; auto. tauto. }
    { destruct (Nat.eq_dec cores 1); [right; auto|left; lia]. }
    rewrite EH. cbn [bind].
    assert (PS' : part_schedule ng (quotient (edge n dp ds) ng gp gs) no lp pp np).
    { destruct PS as (A1 & A2 & A3). split; [auto|split; [auto|]]. intros u v lu pu ku lv pv kv He. apply A3. now apply QE. }
    destruct (C24_ungroup_sorted junk None n dp ds ng gp gs no lp pp np) as (pp' & np' & EU & _ & _ & VS); auto; [apply SP|].
    rewrite EU. cbn [bind]. apply (C25_schedule_transfers n Lp Li dp ds no lp pp' np' W SP) in VS.
    apply (valid_schedule_iff n (row_dep n Rp Ri)) in VS; [|intros u v; apply HRD].
    destruct (C29_lbc_solve_serial V DV fms quo n Rp Ri Rx b no lp pp' np' LR Hb VS) as (P & EP & S1).
    destruct (C30_solve_race_free V DV fms quo n Rp Ri Rx b no lp pp' np' LR Hb VS) as (P' & EP' & S2).
    rewrite EP in EP'. injection EP' as <-. exists P. splits; auto.
  - intros HV. destruct (C17_chain_throws below accept junk ng p s c cores false bp WQ DQ Hng (or_introl HV)) as (-> & _). reflexivity.
Qed.
Print Assumptions C63_tree_hdagg_end_to_end.

Lemma not_chain n p s k r : 0 < n -> wf_csc n p s -> one_diag n p s -> computingLevelSet_CSC n p s [] [] = Ok (k, r) -> (0 <= k)%Z -> ~ visits_all n (edge n p s).
Proof.
  intros Hn W D E Hk HV. destruct (C04_computingLevelSet n p s [] [] W D eq_refl) as (k' & ptr & lset & E' & (_ & H) & _).
  rewrite E in E'. injection E' as <- _. rewrite H in Hk by auto. lia.
Qed.

(** 0 -> 2, 1 -> 2, 1 -> 3, 4 alone *)
Definition exTp := [0;2;5;6;7;8].
Definition exTi := [0;2; 1;2;3; 2; 3; 4].

Example C63_case : lower_matrix 5 exTp exTi (repeat 1%Z 8) /\ diag_first 5 exTp exTi /\
  (exists gp gs p s, tree_groups_of true 2 [1;0] 5 8 exTp exTi = Ok (4, gp, gs, p, s) /\ ~ visits_all 4 (edge 4 p s)) /\
  (exists P, tree_hdagg_prog below_exact (fun _ it => it <=? 2) 0 true 2 [1;0] 5 8 exTp exTi [0;1;2;5;7;8] [0; 1; 0;1;2; 1;3; 4] 2 true = Ok P /\ P <> []).
Proof.
  assert (DF : diag_first 5 exTp exTi) by now apply diag_firstb_ok. splits; auto.
  - unfold lower_matrix. splits; [now apply wf_cscb_ok|now apply one_diag_of_first|now apply lower_trib_ok|vm_compute; lia|lia].
  - destruct (tree_groups_of_ok 2 [1;0] 5 8 exTp exTi) as (ng & gp & gs & p & s & E & TD); auto; try lia; [now apply wf_cscb_ok|now apply lower_trib_ok|].
    pose proof E as E'. vm_compute in E'. injection E' as <- <- <- <- <-. rewrite E. do 4 eexists. split; [reflexivity|].
    eapply not_chain; [lia|apply TD|apply TD|vm_compute; reflexivity|lia].
  - eexists. split; [vm_compute; reflexivity|discriminate].
Qed.

(** 0 -> 1 -> 3, 0 -> 2 -> 3: the groups {0} and {1,2,3} form a chain *)
Theorem C63_diamond_throws_refuted :
  ~ (forall below accept junk bins sched n nnz Lp Li (Lx : list Z) Rp Ri Rx cores bin_pack,
     lower_matrix n Lp Li Lx -> diag_first n Lp Li -> ~ visits_all n (edge n Lp Li) -> 1 <= cores -> 0 < bins -> rounding_ok below ->
     csc_to_csr_arr n n Lp Li Lx = Ok (Rp, Ri, Rx) ->
     exists P, tree_hdagg_prog below accept junk true bins sched n nnz Lp Li Rp Ri cores bin_pack = Ok P).
Proof.
  intros H. destruct (H below_exact (fun _ _ => true) 0 1 [] 4 8 [0;3;5;7;8] [0;1;2; 1;3; 2;3; 3] (repeat 1%Z 8)
    [0;1;3;5;8] [0; 0;1; 0;2; 1;2;3] (repeat 1%Z 8) 2 true) as (P & HP); try lia.
  - unfold lower_matrix. splits; [now apply wf_cscb_ok|apply one_diag_of_first; now apply diag_firstb_ok|now apply lower_trib_ok|vm_compute; lia|lia].
  - now apply diag_firstb_ok.
  - eapply not_chain; [lia|now apply wf_cscb_ok|apply one_diag_of_first; now apply diag_firstb_ok|vm_compute; reflexivity|lia].
  - apply rounding_exact.
  - vm_compute. reflexivity.
  - vm_compute in HP. discriminate.
Qed.
Print Assumptions C63_diamond_throws_refuted.

(** ** Tree groups in wavefronts, not unpacked *)

Theorem C64_tree_wavefront_end_to_end :
  forall (V : Type) (DV : Dflt V) fms quo bins sched n nnz Lp Li (Lx b : list V),
  lower_matrix n Lp Li Lx -> diag_first n Lp Li -> n <= length b -> 0 < bins ->
  exists Rp Ri Rx ng gp gs p s P, csc_to_csr_arr n n Lp Li Lx = Ok (Rp, Ri, Rx) /\
    tree_groups_of true bins sched n nnz Lp Li = Ok (ng, gp, gs, p, s) /\ tree_dag n Lp Li ng gp gs p s /\
    tree_wavefront_prog true bins sched n nnz Lp Li = Ok P /\
    (~ visits_all ng (edge ng p s) -> same_as_serial fms quo n Rp Ri Rx b P /\ race_free fms quo Rp Ri Rx b P) /\
    (visits_all ng (edge ng p s) -> forall x', x_exec fms quo Rp Ri Rx P b x' -> x' = b).
Proof.
  intros V DV fms quo bins sched n nnz Lp Li Lx b LM DF Hb HB. pose proof LM as (W & D & HT & _ & Hn).
  destruct (csr_of_lower V DV n Lp Li Lx LM) as (Rp & Ri & Rx & E & LR & HRD).
  destruct (tree_groups_of_ok bins sched n nnz Lp Li W DF HT Hn HB) as (ng & gp & gs & p & s & ET & TD).
  exists Rp, Ri, Rx, ng, gp, gs, p, s. pose proof TD as (GR & Hng & WQ & DQ & AQ & dp & ds & SP & DT & QE).
  pose proof GR as (G1 & G2 & GP & GN). pose proof GP as (P0 & Pm & Pk & Pb & Pi).
  assert (G : wp (sort_ids gp gs) (fun gs' => resorted (fun x => x) gp gs gs')).
  { apply sort_ids_wp; auto; try lia. - intros q Hq. apply Pm. lia. - rewrite G1. simpl. rewrite Nat.sub_0_r. lia. }
  unfold sort_ids in G. rewrite G1 in G. replace (S ng - 1) with ng in G by lia. apply wp_ok in G. destruct G as (gs' & ES & (R1 & R2 & R3 & R4)).
  unfold tree_wavefront_prog. rewrite ET. cbn [bind].
  assert (HM : forall i j, i <= j -> j <= ng -> gp.[i] <= gp.[j]) by (apply (mono_le (aget gp)); auto).
  assert (ND : NoDup gs).
  { apply (NoDup_nth gs 0). intros i j Hi Hj Ee. apply Pi; auto; lia. }
  assert (ND' : NoDup gs') by (eapply Permutation_NoDup; [symmetry; exact R2|auto]).
  assert (HI : forall g x, g < ng -> (in_level gp gs' g x <-> in_level gp gs g x)).
  { intros g x Hg. unfold in_level. pose proof (HM g (S g) ltac:(lia) ltac:(lia)). pose proof (HM (S g) ng ltac:(lia) ltac:(lia)).
    rewrite <- !In_slice by lia. split; apply Permutation_in; [|symmetry]; apply R3; lia. }
  assert (GP' : group_partition n ng gp gs').
  { unfold group_partition, level_partition. splits; auto.
    - intros i Hi. assert (Hin : In gs'.[i] gs) by (eapply Permutation_in; [exact R2|apply aget_In; lia]).
      apply In_aget in Hin. destruct Hin as (j & Hj & <-). apply Pb. lia.
    - intros i j Hi Hj Ee. apply (NoDup_aget gs'); auto; lia. }
  assert (GO : group_ordered (row_dep n Rp Ri) ng gp gs').
  { intros g k k' Hg Hk Hk' He. destruct LR as (_ & RL & _). specialize (RL _ _ He).
    destruct (le_lt_dec k' k) as [Hle|]; auto. exfalso.
    specialize (R4 g ltac:(lia)). rewrite map_id in R4. pose proof (HM (S g) ng ltac:(lia) ltac:(lia)).
    destruct (Nat.eq_dec k' k) as [->|]; [lia|].
    specialize (R4 (k' - gp.[g]) (k - gp.[g]) ltac:(lia) ltac:(rewrite slice_length; lia)). rewrite !aget_slice in R4 by lia.
    replace (gp.[g] + (k' - gp.[g])) with k' in R4 by lia. replace (gp.[g] + (k - gp.[g])) with k in R4 by lia. lia. }
  assert (HV : visits_all ng (edge ng p s) \/ ~ visits_all ng (edge ng p s)).
  { destruct (C04_computingLevelSet ng p s [] [] WQ DQ eq_refl) as (k & ptr & lset & EL & Hk & _).
    destruct (Z.eq_dec k (-1)) as [Ek|Ek].
    - left. apply Hk in Ek. destruct Ek as (_ & [(u & m & Hc)|Hv]); auto. exfalso. exact (AQ u m Hc).
    - right. intros Hv. apply Ek, Hk. auto. }
  destruct HV as [HV|HV].
  - destruct (no_wavefronts ng p s WQ DQ Hng HV) as (ptr & lset & EL). rewrite EL. cbn [bind]. rewrite ES. cbn [bind].
    exists []. splits; auto; [tauto|]. intros _ x' (l & ths & Hs & _).
    assert (G : forall s s', x_steps fms quo Rp Ri Rx [] s s' -> s' = s).
    { induction 1 as [|s1 s2 s3 Hs1 IH Hst]; auto. destruct Hst; simpl in *; lia. }
    apply G in Hs. injection Hs as _ _ ->. reflexivity.
  - destruct (wavefronts ng p s) as (k & ptr & lset & EL & LP & LO & L1 & L2).
    { unfold dag_input. splits; auto. tauto. }
    rewrite EL. cbn [bind]. rewrite ES. cbn [bind]. rewrite Nat2Z.id.
    assert (LOq : level_ordered (quotient (edge n dp ds) ng gp gs) k ptr lset).
    { intros u v lu lv He. apply LO. now apply QE. }
    assert (LO' : level_ordered (quotient (row_dep n Rp Ri) ng gp gs') k ptr lset).
    { intros g h lg lh (Hg & Hh & Hne & u & v & Iu & Iv & He) Hlg Hlh Ig Ih.
      apply HRD in He. destruct SP as (S1 & S2 & S3 & S4 & S5 & S6 & _).
      assert (HRc : reaches (edge n dp ds) u v) by (apply S6; now apply reaches_edge). destruct HRc as (m & Hc).
      destruct (group_levels n ng gp gs (edge n dp ds) k ptr lset (fun u v He => wf_edge_lt n dp ds S1 u v He) GR LP LOq u v m Hc g h lg lh) as [|]; auto;
        [now apply HI|now apply HI|contradiction]. }
    destruct (C31_group_levelset_solve_serial V DV fms quo n ng Rp Ri Rx b k ptr lset gp gs' LR Hb GP' GO) as (P & EP & S1 & S2); auto; try lia.
    exists P. splits; auto; tauto.
Qed.
Print Assumptions C64_tree_wavefront_end_to_end.

Example C64_case : exists P, tree_wavefront_prog true 2 [1;0] 5 8 exTp exTi = Ok P /\ P <> [].
Proof. eexists. split; [vm_compute; reflexivity|discriminate]. Qed.

(** the diamond again, with right-hand side (1,2,2,3) and solution (1,1,1,1): it is not solved *)
Theorem C64_diamond_not_solved_refuted :
  ~ (forall bins sched n nnz Lp Li (Lx b : list Z) Rp Ri Rx P y x',
     lower_matrix n Lp Li Lx -> diag_first n Lp Li -> ~ visits_all n (edge n Lp Li) -> n <= length b -> 0 < bins ->
     csc_to_csr_arr n n Lp Li Lx = Ok (Rp, Ri, Rx) -> tree_wavefront_prog true bins sched n nnz Lp Li = Ok P ->
     sptrsv_csr (fun a l d => (a - l * d)%Z) Z.div Rp Ri Rx n b = Ok y ->
     x_exec (fun a l d => (a - l * d)%Z) Z.div Rp Ri Rx P b x' -> x' = y).
Proof.
  intros H. assert (K : [1;2;2;3]%Z = [1;1;1;1]%Z); [|discriminate].
  apply (H 1 [] 4 8 [0;3;5;7;8] [0;1;2; 1;3; 2;3; 3] (repeat 1%Z 8) [1;2;2;3]%Z
    [0;1;3;5;8] [0; 0;1; 0;2; 1;2;3] (repeat 1%Z 8) []); try (vm_compute; reflexivity); try lia.
  - unfold lower_matrix. splits; [now apply wf_cscb_ok|apply one_diag_of_first; now apply diag_firstb_ok|now apply lower_trib_ok|vm_compute; lia|lia].
  - now apply diag_firstb_ok.
  - eapply not_chain; [lia|now apply wf_cscb_ok|apply one_diag_of_first; now apply diag_firstb_ok|vm_compute; reflexivity|lia].
  - exists 0, (enter [] 0). split; [constructor|reflexivity].
Qed.
Print Assumptions C64_diamond_not_solved_refuted.
