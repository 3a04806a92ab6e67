(** Property C156: the parallel row-wise kernels spic0_csr_levelset and spic0_csr_lbc. *)
From Coq Require Import ZifyBool ZifyNat.
From Verif Require Import Base Lib Lib2 Spec SpecSolve Check CheckS M_SpTRSV M_IC0Row L_SpTRSV L_SpTRSV2 L_IC0 L_IC0Row P_IC0.
From Verif Require M_IC0.

Lemma flat_map_nth {A B} (f : A -> list B) l : forall q o, nth_error (flat_map f l) q = Some o ->
  exists l1 i l2 r, l = l1 ++ i :: l2 /\ q = length (flat_map f l1) + r /\ nth_error (f i) r = Some o.
Proof.
  induction l as [|a l IH]; intros q o H; [destruct q; discriminate|]. cbn [flat_map] in H. destruct (Nat.lt_ge_cases q (length (f a))).
  - rewrite nth_error_app1 in H by auto. exists [], a, l, q. auto.
  - rewrite nth_error_app2 in H by auto. destruct (IH _ _ H) as (l1 & i & l2 & r & -> & E & X). exists (a :: l1), i, l2, r. splits; auto. cbn [flat_map]. rewrite app_length. lia.
Qed.

Lemma nth_flat_map {A B} (f : A -> list B) l1 i l2 r o : nth_error (f i) r = Some o -> nth_error (flat_map f (l1 ++ i :: l2)) (length (flat_map f l1) + r) = Some o.
Proof.
  intros H. rewrite flat_map_app. cbn [flat_map]. rewrite nth_error_app2 by lia. rewrite Nat.add_comm, Nat.add_sub. rewrite nth_error_app1; auto. apply nth_error_Some. congruence.
Qed.

Section Rows.
Variables (n : nat) (Lp Li : list nat).
Hypothesis SR : sorted_rows n Lp Li.

(** the operations that are performed: S1 and S2 *)
Definition rops (i : nat) : list rop := RRoot (Lp.[S i] - 1) :: map (fun m => RDiv m (Lp.[S i] - 1)) (seq Lp.[i] (Lp.[S i] - 1 - Lp.[i])).

Lemma rows_bounds i : i < n -> Lp.[i] < Lp.[S i] /\ Lp.[S i] <= Lp.[n] /\ S i < length Lp.
Proof.
  destruct SR as ((W1 & W2 & W3 & W4 & W5) & _ & NE). intros Hi. splits; [auto| |lia]. apply (mono_le (aget Lp) n); auto; lia.
Qed.

Lemma rows_unique i j k : i < n -> j < n -> Lp.[i] <= k < Lp.[S i] -> Lp.[j] <= k < Lp.[S j] -> i = j.
Proof.
  intros Hi Hj A B. destruct SR as ((W1 & W2 & W3 & W4 & W5) & _ & NE).
  assert (M : forall i j, i <= j -> j <= n -> Lp.[i] <= Lp.[j]) by (intros; apply (mono_le (aget Lp) n); auto; lia).
  destruct (Nat.lt_trichotomy i j) as [X|[X|X]]; auto; [specialize (M (S i) j ltac:(lia) ltac:(lia))|specialize (M (S j) i ltac:(lia) ltac:(lia))]; lia.
Qed.

Lemma row_ops_wp i (Q : list rop -> Prop) : i < n -> Q (rops i) -> wp (row_ops Lp Li i) Q.
Proof.
  intros Hi HQ. pose proof (rows_bounds i Hi) as (B1 & B2 & B3). pose proof SR as ((W1 & W2 & W3 & W4 & W5) & SC & NE).
  unfold row_ops. apply wp_bind. apply wp_rd; [lia|]. replace (Lp.[S i] =? 0) with false by lia. apply wp_bind. apply wp_rd; [lia|].
  set (e := Lp.[S i] - 1) in *. apply wp_bind.
  apply (wp_for (fun m acc => acc = map (fun m => RDiv m e) (seq Lp.[i] (m - Lp.[i])))); [lia|now rewrite Nat.sub_diag| |].
  { intros m acc Hm ->. apply wp_ret. replace (S m - Lp.[i]) with ((m - Lp.[i]) + 1) by lia. rewrite seq_app, map_app. cbn [seq map]. do 3 f_equal. lia. }
  intros divs ->. apply wp_bind. apply (wp_for (fun _ acc => acc = [])); [lia|reflexivity| |].
  - intros m z' Hm ->. assert (Hc : Li.[m] < n) by (apply W5; lia). apply wp_bind. apply wp_rd; [lia|]. apply wp_bind. apply wp_rd; [lia|]. apply wp_bind. apply wp_rd; [lia|].
    pose proof (rows_bounds _ Hc) as (D1 & D2 & D3).
    apply (wp_for (fun _ z' => z' = [])); [lia|reflexivity| |auto].
    intros k z' Hk ->. apply (wp_for (fun _ z' => z' = [])); [lia|reflexivity| |auto].
    intros l z' Hl ->. apply wp_bind. apply wp_rd; [lia|]. apply wp_bind. apply wp_rd; [lia|].
    destruct (Nat.eqb_spec Li.[l] Li.[k]) as [E|]; [|reflexivity]. apply wp_bind. apply wp_rd; [lia|].
    specialize (SC i l (S l)). destruct (Nat.leb_spec Li.[S l] Li.[k]); [lia|reflexivity].
  - intros us ->. apply wp_ret. rewrite app_nil_r. exact HQ.
Qed.

Lemma rows_ops_wp T (Q : list rop -> Prop) : (forall i, In i T -> i < n) -> Q (flat_map rops T) -> wp (rows_ops Lp Li T) Q.
Proof.
  intros HT HQ. unfold rows_ops. enough (G : forall acc, wp (foreach T (fun i acc => o <- row_ops Lp Li i ;; Ok (acc ++ o)) acc) (fun r => r = acc ++ flat_map rops T)).
  { eapply wp_mono; [apply G|]. intros r ->. exact HQ. }
  clear HQ. induction T as [|a T IH]; intros acc; cbn [foreach]; [apply wp_ret; cbn; now rewrite app_nil_r|]. apply wp_bind. apply wp_bind. apply row_ops_wp; [apply HT; now left|]. apply wp_ret.
  eapply wp_mono; [apply IH; intros; apply HT; now right|]. intros r ->. cbn [flat_map]. now rewrite app_assoc.
Qed.

Lemma rlevel_ops_wp L (Q : list (list rop) -> Prop) : (forall T i, In T L -> In i T -> i < n) -> Q (map (flat_map rops) L) -> wp (rlevel_ops Lp Li L) Q.
Proof.
  intros HT HQ. unfold rlevel_ops. enough (G : forall acc, wp (foreach L (fun rows acc => o <- rows_ops Lp Li rows ;; Ok (acc ++ [o])) acc) (fun r => r = acc ++ map (flat_map rops) L)).
  { eapply wp_mono; [apply G|]. intros r ->. exact HQ. }
  clear HQ. induction L as [|a T IH]; intros acc; cbn [foreach]; [apply wp_ret; cbn; now rewrite app_nil_r|]. apply wp_bind. apply wp_bind. apply rows_ops_wp; [intros i; apply HT; now left|]. apply wp_ret.
  eapply wp_mono; [apply IH; intros T' i H; apply HT; now right|]. intros r ->. cbn [map]. now rewrite <- app_assoc.
Qed.

Lemma row_prog_ok P : (forall L T i, In L P -> In T L -> In i T -> i < n) -> row_prog Lp Li P = Ok (map (map (flat_map rops)) P).
Proof.
  intros HT. enough (G : forall acc, wp (foreach P (fun L acc => o <- rlevel_ops Lp Li L ;; Ok (acc ++ [o])) acc) (fun r => r = acc ++ map (map (flat_map rops)) P)).
  { specialize (G []). apply wp_ok in G. destruct G as (r & E & ->). exact E. }
  induction P as [|a T IH]; intros acc; cbn [foreach]; [apply wp_ret; cbn; now rewrite app_nil_r|]. apply wp_bind. apply wp_bind. apply rlevel_ops_wp; [intros T' i; apply HT; now left|]. apply wp_ret.
  eapply wp_mono; [apply IH; intros L' T' i H; apply HT; now right|]. intros r ->. cbn [map]. now rewrite <- app_assoc.
Qed.

Lemma In_rops o i : i < n -> In o (rops i) -> Lp.[i] <= rtgt o < Lp.[S i].
Proof.
  intros Hi [<-|H]; pose proof (rows_bounds i Hi); cbn [rtgt]; [lia|]. apply in_map_iff in H. destruct H as (m & <- & Hm). apply in_seq in Hm. cbn. lia.
Qed.

Lemma rops_nodup i : i < n -> NoDup (map rtgt (rops i)).
Proof.
  intros Hi. pose proof (rows_bounds i Hi). cbn [rops map rtgt]. rewrite map_map. cbn [rtgt]. rewrite map_id. constructor; [rewrite in_seq; lia|apply seq_NoDup].
Qed.

Section Prog.
Context {V : Type} {DV : Dflt V}.
Variables (fms : V -> V -> V -> V) (quo : V -> V -> V) (root : V -> V).
Variable P : prog.
Hypothesis PO : prog_ok n (fun _ _ => False) P.
Variable x0 : list V.
Hypothesis HX : Lp.[n] <= length x0.
Definition ROP : rprog := map (map (flat_map rops)) P.

Lemma ROP_len : length ROP = length P. Proof. apply map_length. Qed.
Lemma ROP_lev l : l < length P -> length ROP.[l] = length P.[l].
Proof. intros Hl. unfold ROP. rewrite aget_map by auto. apply map_length. Qed.
Lemma ROP_get l t : l < length P -> t < length P.[l] -> ROP.[l].[t] = flat_map rops P.[l].[t].
Proof. intros Hl Ht. unfold ROP. rewrite aget_map by auto. now rewrite aget_map. Qed.

Lemma rat_split l t q o : rat ROP l t q o -> exists l1 i l2 r, P.[l].[t] = l1 ++ i :: l2 /\ q = length (flat_map rops l1) + r /\ nth_error (rops i) r = Some o /\
  pat P l t (length l1) i /\ i < n.
Proof.
  intros (Hl & Ht & Hq). rewrite ROP_len in Hl. rewrite ROP_lev in Ht by auto. rewrite ROP_get in Hq by auto. destruct (flat_map_nth _ _ _ _ Hq) as (l1 & i & l2 & r & E & EQ & X).
  assert (A : pat P l t (length l1) i). { unfold pat. rewrite E. splits; auto; [rewrite app_length; cbn; lia|]. unfold aget. now rewrite app_nth2, Nat.sub_diag by lia. }
  exists l1, i, l2, r. splits; auto. destruct PO as (P1 & _). eauto.
Qed.

(** the row that element k belongs to *)
Definition fin (k : nat) : V := match find (fun i => (Lp.[i] <=? k) && (k <? Lp.[S i])) (seq 0 n) with
  | Some i => let d := root x0.[Lp.[S i] - 1] in if k =? Lp.[S i] - 1 then d else quo x0.[k] d
  | None => x0.[k] end.

Lemma fin_row i k : i < n -> Lp.[i] <= k < Lp.[S i] -> fin k = let d := root x0.[Lp.[S i] - 1] in if k =? Lp.[S i] - 1 then d else quo x0.[k] d.
Proof.
  intros Hi Hk. unfold fin. destruct (find _ (seq 0 n)) as [j|] eqn:E.
  - apply find_some in E. destruct E as (Hj & E). apply in_seq in Hj. replace j with i; [reflexivity|]. apply (rows_unique i j k); auto; lia.
  - exfalso. pose proof (find_none _ _ E i ltac:(apply in_seq; lia)) as X. cbv beta in X. lia.
Qed.

Lemma h1 l t q o l' t' q' o' : rat ROP l t q o -> rat ROP l' t' q' o' -> rtgt o = rtgt o' -> l = l' /\ t = t' /\ q = q'.
Proof.
  intros A A' E. destruct (rat_split _ _ _ _ A) as (l1 & i & l2 & r & EP & EQ & X & PA & Hi). destruct (rat_split _ _ _ _ A') as (l1' & i' & l2' & r' & EP' & EQ' & X' & PA' & Hi').
  pose proof (In_rops o i Hi (nth_error_In _ _ X)). pose proof (In_rops o' i' Hi' (nth_error_In _ _ X')). rewrite <- E in *. assert (i = i') by (eapply rows_unique; eauto). subst i'.
  destruct PO as (_ & P2 & _). destruct (P2 _ _ _ _ _ _ _ PA PA') as (<- & <- & EL). splits; auto.
  rewrite EP in EP'. assert (l1 = l1'). { rewrite <- (firstn_all l1), <- (firstn_all l1') at 1. rewrite EL at 1.
    transitivity (firstn (length l1') (l1 ++ i :: l2)); [rewrite <- EL, firstn_app, Nat.sub_diag, firstn_O, app_nil_r; now rewrite !firstn_all|]. rewrite EP', firstn_app, Nat.sub_diag, firstn_O, app_nil_r. reflexivity. }
  subst l1'. rewrite EQ, EQ'. f_equal. eapply (proj1 (NoDup_nth_error (map rtgt (rops i))) (rops_nodup i Hi)).
  - rewrite map_length. apply nth_error_Some. congruence.
  - rewrite (map_nth_error rtgt _ _ X), (map_nth_error rtgt _ _ X'). now rewrite E.
Qed.

Lemma rat_back l t l1 i l2 r o : l < length P -> t < length P.[l] -> P.[l].[t] = l1 ++ i :: l2 -> nth_error (rops i) r = Some o -> rat ROP l t (length (flat_map rops l1) + r) o.
Proof.
  intros Hl Ht E X. unfold rat. rewrite ROP_len, ROP_lev, ROP_get by auto. splits; auto. rewrite E. now apply nth_flat_map.
Qed.

Lemma h2 l t q o c : rat ROP l t q o -> In c (rsrc o) -> c = rtgt o \/ exists q' o', q' < q /\ rat ROP l t q' o' /\ rtgt o' = c.
Proof.
  intros A Hc. destruct (rat_split _ _ _ _ A) as (l1 & i & l2 & r & EP & EQ & X & (PA1 & PA2 & _) & Hi). destruct r as [|r].
  - cbn in X. injection X as <-. cbn in Hc. destruct Hc as [<-|[]]. now left.
  - cbn in X. apply nth_error_In in X. apply in_map_iff in X. destruct X as (m & <- & Hm). cbn in Hc. destruct Hc as [<-|[<-|[]]]; [now left|]. right.
    exists (length (flat_map rops l1) + 0), (RRoot (Lp.[S i] - 1)). splits; [lia| |reflexivity]. eapply rat_back; eauto.
Qed.

Lemma h3 l t q o : rat ROP l t q o -> rtgt o < length x0.
Proof.
  intros A. destruct (rat_split _ _ _ _ A) as (l1 & i & l2 & r & _ & _ & X & _ & Hi). pose proof (In_rops o i Hi (nth_error_In _ _ X)). pose proof (rows_bounds i Hi). lia.
Qed.

Lemma h4 l t q o : rat ROP l t q o -> rval fms quo root o (map (arg x0 fin o) (rsrc o)) = fin (rtgt o).
Proof.
  intros A. destruct (rat_split _ _ _ _ A) as (l1 & i & l2 & r & _ & _ & X & _ & Hi). apply nth_error_In in X. pose proof (rows_bounds i Hi). destruct X as [<-|X].
  - cbn [rsrc rtgt map rval]. unfold arg. cbn [rtgt]. rewrite Nat.eqb_refl. rewrite (fin_row i) by lia. cbv zeta. now rewrite Nat.eqb_refl.
  - apply in_map_iff in X. destruct X as (m & <- & Hm). apply in_seq in Hm. cbn [rsrc rtgt map rval]. unfold arg. cbn [rtgt]. rewrite Nat.eqb_refl.
    replace (Lp.[S i] - 1 =? m) with false by lia. rewrite !(fin_row i) by lia. cbv zeta. rewrite Nat.eqb_refl. replace (m =? Lp.[S i] - 1) with false by lia. reflexivity.
Qed.

(** every element of the rows is written *)
Lemma rat_all i k : i < n -> Lp.[i] <= k < Lp.[S i] -> exists l t q o, rat ROP l t q o /\ rtgt o = k.
Proof.
  intros Hi Hk. destruct PO as (_ & _ & P3 & _). destruct (P3 i Hi) as (l & t & q & B1 & B2 & B3 & B4).
  assert (NE : nth_error P.[l].[t] q = Some i) by (rewrite nth_error_aget by auto; now rewrite B4). apply nth_error_split in NE. destruct NE as (l1 & l2 & E & _).
  assert (IN : exists o, In o (rops i) /\ rtgt o = k).
  { destruct (Nat.eq_dec k (Lp.[S i] - 1)) as [->|]; [exists (RRoot (Lp.[S i] - 1)); split; [now left|reflexivity]|]. exists (RDiv k (Lp.[S i] - 1)). split; [|reflexivity]. right. apply in_map_iff. exists k. split; auto. apply in_seq. lia. }
  destruct IN as (o & IN & T). apply In_nth_error in IN. destruct IN as (r & X). exists l, t, (length (flat_map rops l1) + r), o. split; auto. eapply rat_back; eauto.
Qed.

Lemma exec_scaled x' : r_exec fms quo root ROP x0 x' -> only_scaled quo root n Lp x0 x'.
Proof.
  intros HE. destruct (r_exec_result fms quo root ROP x0 fin h1 h2 h3 h4 x' HE) as (L & F & U). unfold only_scaled. splits; auto.
  - intros k Hk. apply U. intros l t q o A E. destruct (rat_split _ _ _ _ A) as (l1 & i & l2 & r & _ & _ & X & _ & Hi). pose proof (In_rops o i Hi (nth_error_In _ _ X)). pose proof (rows_bounds i Hi). lia.
  - intros i k Hi Hk. destruct (rat_all i k Hi Hk) as (l & t & q & o & A & <-). rewrite (F l t q o A). now apply fin_row.
Qed.
End Prog.
End Rows.

(** Every interleaving: no access fails, an unfinished execution can step, none is infinite, there is a complete one, no two threads
    access an element at the same time unless both read, and every complete execution ends with each row scaled. *)
Definition scales {V} `{Dflt V} fms quo root (n : nat) (Lp Li : list nat) (x : list V) (O : rprog) : Prop :=
  (forall s, r_steps fms quo root O (r_start O x) s ->
     ~ r_bad fms quo root O s /\ ~ r_race O s /\ (r_final O s \/ exists s', r_step fms quo root O s s')) /\
  (~ exists run, run 0 = r_start O x /\ forall i, r_step fms quo root O (run i) (run (S i))) /\
  (exists x', r_exec fms quo root O x x') /\
  (forall x', r_exec fms quo root O x x' -> only_scaled quo root n Lp x x' /\ M_IC0.spic0_csr fms quo root n Lp Li x = Ok x').

Lemma only_scaled_unique {V} `{Dflt V} (quo : V -> V -> V) root n Lp Li (x y z : list V) : sorted_rows n Lp Li ->
  only_scaled quo root n Lp x y -> only_scaled quo root n Lp x z -> y = z.
Proof.
  intros ((W1 & W2 & W3 & W4 & W5) & _ & NE) (L1 & O1 & F1) (L2 & O2 & F2). apply list_ext; [congruence|]. intros k Hk. destruct (Nat.lt_ge_cases k Lp.[n]) as [X|X]; [|rewrite O1, O2; auto].
  destruct (bucket_exists (aget Lp) n k) as (i & Hi & B); [cbv beta; lia|exact X|]. rewrite (F1 i k), (F2 i k); auto; lia.
Qed.

Lemma prog_scales {V} `{Dflt V} fms quo root n Lp Li (x : list V) P : sorted_rows n Lp Li -> Lp.[n] <= length x -> prog_ok n (fun _ _ => False) P ->
  exists O, row_prog Lp Li P = Ok O /\ scales fms quo root n Lp Li x O.
Proof.
  intros SR HX PO. exists (ROP Lp P). split.
  - apply (row_prog_ok n Lp Li SR). intros L T i HL HT Hi. destruct PO as (P1 & _). apply In_aget in HL, HT, Hi.
    destruct HL as (l & Hl & <-), HT as (t & Ht & <-), Hi as (q & Hq & <-). apply (P1 l t q). unfold pat. auto.
  - pose proof (h1 n Lp Li SR fms quo root P PO x HX) as X1. pose proof (h2 n Lp fms quo root P PO x HX) as X2. pose proof (h3 n Lp Li SR fms quo root P PO x HX) as X3. pose proof (h4 n Lp Li SR fms quo root P PO x HX) as X4.
    assert (HI : forall s, r_steps fms quo root (ROP Lp P) (r_start (ROP Lp P) x) s -> RInv (ROP Lp P) x (fin n Lp quo root x) s).
    { intros s Hs. eapply steps_RInv; eauto. apply (start_RInv fms quo root); auto. }
    unfold scales. splits.
    + intros s Hs. specialize (HI s Hs). splits; [eapply RInv_not_bad; eauto|eapply RInv_no_race; eauto|eapply RInv_progress; eauto].
    + eapply r_no_infinite; eauto.
    + eapply r_exec_exists; eauto.
    + intros x' Hx. assert (S1 : only_scaled quo root n Lp x x') by (eapply exec_scaled; eauto). split; auto.
      destruct (C142_csr_never_subtracts V _ fms quo root n Lp Li x SR HX) as (y & E & S2). rewrite E. f_equal. eapply only_scaled_unique; eauto.
Qed.

(** Any partition of the rows into levels will do: there is nothing to order. *)
Theorem C156_csr_levelset :
  forall (V : Type) (DV : Dflt V) fms quo root n Lp Li (x : list V) k levelPtr levelSet,
  sorted_rows n Lp Li -> Lp.[n] <= length x ->
  level_partition n k levelPtr levelSet -> k < length levelPtr -> n <= length levelSet ->
  exists O, spic0_csr_levelset Lp Li k levelPtr levelSet = Ok O /\ scales fms quo root n Lp Li x O.
Proof.
  intros V DV fms quo root n Lp Li x k lp ls SR HX LP L1 L2. unfold spic0_csr_levelset. rewrite (levelset_prog_ok n k lp ls LP L1 L2). cbn [bind].
  apply prog_scales; auto. apply prog_ok_nodes; [tauto|tauto|]. apply level_parts; auto. intros u v lu lv [].
Qed.
Print Assumptions C156_csr_levelset.

Theorem C156_csr_lbc :
  forall (V : Type) (DV : Dflt V) fms quo root n Lp Li (x : list V) level_no level_ptr par_ptr partition,
  sorted_rows n Lp Li -> Lp.[n] <= length x ->
  sched_wf n level_no level_ptr par_ptr partition -> sched_complete n partition ->
  exists O, spic0_csr_lbc Lp Li level_no level_ptr par_ptr partition = Ok O /\ scales fms quo root n Lp Li x O.
Proof.
  intros V DV fms quo root n Lp Li x no clp cpp cnp SR HX SW SC. assert (VS : valid_schedule n (fun _ _ => False) no clp cpp cnp).
  { unfold valid_schedule. splits; auto. intros u v lu pu ku lv pv kv []. }
  unfold spic0_csr_lbc. rewrite (lbc_prog_ok _ _ _ _ _ _ VS). cbn [bind]. apply prog_scales; auto. apply prog_ok_nodes; [tauto|tauto|exact VS].
Qed.
Print Assumptions C156_csr_lbc.

(** rows {0}, {0,1}, {1,2}; levels {2} and {0,1} although row 2 depends on row 1 *)
Example C156_nonvacuous :
  sorted_rows 3 [0;1;3;5] [0;0;1;1;2] /\ level_partition 3 2 [0;1;3] [2;0;1] /\
  sched_wf 3 2 [0;1;2] [0;1;3] [2;0;1] /\ sched_complete 3 [2;0;1] /\
  spic0_csr_levelset [0;1;3;5] [0;0;1;1;2] 2 [0;1;3] [2;0;1] = Ok [[[RRoot 4; RDiv 3 4]]; [[RRoot 0]; [RRoot 2; RDiv 1 2]]] /\
  spic0_csr_lbc [0;1;3;5] [0;0;1;1;2] 2 [0;1;2] [0;1;3] [2;0;1] = Ok [[[RRoot 4; RDiv 3 4]]; [[RRoot 0; RRoot 2; RDiv 1 2]]].
Proof.
  splits; try (vm_compute; reflexivity).
  - split; [apply wf_cscb_ok; vm_compute; reflexivity|split; [apply sorted_colsb_ok; vm_compute; reflexivity|]]. intros i Hi. do 3 (destruct i as [|i]; [cbn; lia|]). lia.
  - unfold level_partition. splits; try (cbn; lia).
    + intros l Hl; do 2 (destruct l as [|l]; [cbn; lia|]); lia.
    + intros l Hl; do 3 (destruct l as [|l]; [cbn; lia|]); lia.
    + intros k k' Hk Hk'. do 3 (destruct k as [|k]; [do 3 (destruct k' as [|k']; [cbn; lia|]); lia|]). lia.
  - unfold sched_wf. splits; cbn; try lia; intros l Hl; do 2 (destruct l as [|l]; [cbn; lia|]); lia.
  - split; [intros k Hk; do 3 (destruct k; [cbn; lia|]); lia|]. intros k k' Hk Hk'. do 3 (destruct k as [|k]; [do 3 (destruct k' as [|k']; [cbn; lia|]); lia|]). lia.
Qed.

(** * Rows in any order *)

(** S3 of row i: m, then an entry k of the row that entry m names, then an entry l from m on with the column of k whose successor in the
    row is not larger *)
Definition updates (Lp Li : list nat) (i : nat) : list rop :=
  let e := Lp.[S i] - 1 in
  flat_map (fun m => flat_map (fun k => map (fun l => RUpd k m l)
      (filter (fun l => (Li.[l] =? Li.[k]) && (Li.[S l] <=? Li.[k])) (seq m (e - m))))
    (seq Lp.[Li.[m]] (Lp.[S Li.[m]] - Lp.[Li.[m]]))) (seq Lp.[i] (e - Lp.[i])).

Lemma flat_step {B} (f : nat -> list B) a k : a <= k -> flat_map f (seq a (S k - a)) = flat_map f (seq a (k - a)) ++ f k.
Proof. intros H. replace (S k - a) with ((k - a) + 1) by lia. rewrite seq_app, flat_map_app. cbn [seq flat_map]. rewrite app_nil_r. do 2 f_equal. lia. Qed.

(** Without sorted rows the three loops perform exactly these operations in this order; a first row that is empty indexes Lx at -1. *)
Theorem C156_row_operations : forall n Lp Li i, wf_csc n Lp Li -> i < n ->
  (Lp.[i] < Lp.[S i] ->
     row_ops Lp Li i = Ok (RRoot (Lp.[S i] - 1) :: map (fun m => RDiv m (Lp.[S i] - 1)) (seq Lp.[i] (Lp.[S i] - 1 - Lp.[i])) ++ updates Lp Li i)) /\
  (Lp.[S i] = 0 -> row_ops Lp Li i = Err OOB).
Proof.
  intros n Lp Li i (W1 & W2 & W3 & W4 & W5) Hi.
  assert (MO : forall i j, i <= j -> j <= n -> Lp.[i] <= Lp.[j]) by (intros; apply (mono_le (aget Lp) n); auto; lia).
  pose proof (MO (S i) n ltac:(lia) ltac:(lia)) as B2. split.
  2:{ intros E. unfold row_ops. rewrite rd_ok by lia. cbn [bind]. now rewrite E. }
  intros B1.
  set (goal := _ :: _). enough (G : wp (row_ops Lp Li i) (fun r => r = goal)).
  { apply wp_ok in G. destruct G as (r & E & ->). exact E. }
  unfold row_ops. apply wp_bind. apply wp_rd; [lia|]. replace (Lp.[S i] =? 0) with false by lia. apply wp_bind. apply wp_rd; [lia|].
  subst goal. unfold updates. cbv zeta. set (e := Lp.[S i] - 1) in *. apply wp_bind.
  apply (wp_for (fun m acc => acc = map (fun m => RDiv m e) (seq Lp.[i] (m - Lp.[i])))); [lia|now rewrite Nat.sub_diag| |].
  { intros m acc Hm ->. apply wp_ret. replace (S m - Lp.[i]) with ((m - Lp.[i]) + 1) by lia. rewrite seq_app, map_app. cbn [seq map]. do 3 f_equal. lia. }
  intros divs ->. apply wp_bind.
  set (F3 := fun m k l => if (Li.[l] =? Li.[k]) && (Li.[S l] <=? Li.[k]) then [RUpd k m l] else []).
  assert (E3 : forall m k a c, map (fun l => RUpd k m l) (filter (fun l => (Li.[l] =? Li.[k]) && (Li.[S l] <=? Li.[k])) (seq a c)) = flat_map (F3 m k) (seq a c)).
  { intros m k a c. revert a. induction c as [|c IH]; intros a; [reflexivity|]. cbn [seq filter flat_map]. unfold F3 at 1. destruct (_ && _); cbn [map]; rewrite IH; reflexivity. }
  set (F2 := fun m k => flat_map (F3 m k) (seq m (e - m))).
  set (F1 := fun m => flat_map (F2 m) (seq Lp.[Li.[m]] (Lp.[S Li.[m]] - Lp.[Li.[m]]))).
  apply (wp_for (fun m acc => acc = flat_map F1 (seq Lp.[i] (m - Lp.[i])))); [lia|now rewrite Nat.sub_diag| |].
  - intros m z' Hm ->. assert (Hc : Li.[m] < n) by (apply W5; lia). apply wp_bind. apply wp_rd; [lia|]. apply wp_bind. apply wp_rd; [lia|]. apply wp_bind. apply wp_rd; [lia|].
    pose proof (MO (S Li.[m]) n ltac:(lia) ltac:(lia)) as D2. pose proof (MO Li.[m] (S Li.[m]) ltac:(lia) ltac:(lia)) as D1.
    set (base := flat_map F1 _). set (c := Li.[m]) in *.
    apply (wp_for (fun k z' => z' = base ++ flat_map (F2 m) (seq Lp.[c] (k - Lp.[c])))); [lia|rewrite Nat.sub_diag; cbn; now rewrite app_nil_r| |].
    + intros k z' Hk ->. set (base2 := base ++ _).
      apply (wp_for (fun l z' => z' = base2 ++ flat_map (F3 m k) (seq m (l - m)))); [lia|rewrite Nat.sub_diag; cbn; now rewrite app_nil_r| |].
      * intros l z' Hl ->. apply wp_bind. apply wp_rd; [lia|]. apply wp_bind. apply wp_rd; [lia|]. rewrite flat_step by lia. rewrite app_assoc. set (base3 := base2 ++ _). unfold F3.
        destruct (Nat.eqb_spec Li.[l] Li.[k]) as [E|]; cbn [andb]; [|apply wp_ret; now rewrite app_nil_r]. apply wp_bind. apply wp_rd; [lia|]. apply wp_ret.
        destruct (Li.[S l] <=? Li.[k]); [reflexivity|now rewrite app_nil_r].
      * intros z' ->. subst base2. rewrite flat_step by lia. now rewrite app_assoc.
    + intros z' ->. subst base. rewrite flat_step by lia. reflexivity.
  - intros us ->. apply wp_ret. do 2 f_equal. apply flat_map_ext. intros m. apply flat_map_ext. intros k. unfold F2. now rewrite E3.
Qed.
Print Assumptions C156_row_operations.

(** a row 2 with the entries 1, 0, 2 in this order: entry 1 is followed by a smaller one, so S3 subtracts from row 1 *)
Example C156_unsorted :
  wf_csc 3 [0;1;3;6] [0;0;1;1;0;2] /\ row_ops [0;1;3;6] [0;0;1;1;0;2] 2 = Ok [RRoot 5; RDiv 3 5; RDiv 4 5; RUpd 2 3 3] /\
  (wf_csc 1 [0;0] [] /\ row_ops [0;0] [] 0 = Err OOB).
Proof. splits; try (vm_compute; reflexivity); apply wf_cscb_ok; vm_compute; reflexivity. Qed.
