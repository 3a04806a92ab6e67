(** Properties of partialSparsification (C25, C26, C58, C59). *)
From Coq Require Import ZifyBool ZifyNat.
From Verif Require Import Base Lib Lib2 Lib3 Spec SpecSolve Check CheckS CheckG M_Sparse L_Sparse L_Sparse2 L_Sparse3 L_Sparse4.

(** [p],[s] is a subgraph of [Lp],[Li] with all diagonals and the same paths; with sorted
    columns it has no edge beside a path of two edges *)
Definition sparsified (n : nat) (Lp Li p s : list nat) : Prop :=
  wf_csc n p s /\ length p = S n /\ length s = p.[n] /\ diag_first n p s /\
  (forall u v, edge n p s u v -> edge n Lp Li u v) /\
  (forall u v, reaches (edge n p s) u v <-> reaches (edge n Lp Li) u v) /\
  (sorted_cols n Lp Li -> sorted_cols n p s /\ forall u k v, edge n p s u k -> edge n p s k v -> ~ edge n p s u v).

(** * C25 *)

Lemma upd_same (l : list nat) : l.[0] = 0 -> upd l 0 0 = l.
Proof. destruct l as [|x l]; auto. unfold aget. simpl. now intros ->. Qed.

Theorem C25_sparsification_clique :
  forall bins sched n nnz Lp Li, wf_csc n Lp Li -> diag_first n Lp Li -> lower_tri n Lp Li -> 0 < n -> 0 < bins ->
  exists p s, partialSparsification true bins sched n nnz Lp Li [] [] true = Ok (p, s) /\ sparsified n Lp Li p s.
Proof.
  intros bins sched n nnz Lp Li W HD HT Hn HB.
  assert (G : wp (partialSparsification true bins sched n nnz Lp Li [] [] true) (fun r => sparsified n Lp Li (fst r) (snd r))).
  { apply sparse_clique_wp; auto. intros ptr set T E. simpl. rewrite upd_same in T by auto. exact T. }
  destruct (partialSparsification true bins sched n nnz Lp Li [] [] true) as [(p & s)|]; [|contradiction]. exists p, s. auto.
Qed.
Print Assumptions C25_sparsification_clique.

Theorem C25_sparsification_slow :
  forall omp bins sched n nnz Lp Li, wf_csc n Lp Li -> diag_first n Lp Li -> lower_tri n Lp Li -> sorted_cols n Lp Li -> Lp.[n] <= nnz ->
  exists p s, partialSparsification omp bins sched n nnz Lp Li [] [] false = Ok (p, s) /\ sparsified n Lp Li p s /\
    forall u k v, edge n Lp Li u k -> edge n Lp Li k v -> ~ edge n p s u v.
Proof.
  intros omp bins sched n nnz Lp Li W HD HT HS HN.
  assert (G : wp (partialSparsification omp bins sched n nnz Lp Li [] [] false) (fun r => sparsified n Lp Li (fst r) (snd r) /\
     forall u k v, edge n Lp Li u k -> edge n Lp Li k v -> ~ edge n (fst r) (snd r) u v)).
  { apply sparse_slow_wp; auto. intros ptr set T R E. simpl. rewrite upd_same in T, R by auto. split; [exact T|auto]. }
  destruct (partialSparsification omp bins sched n nnz Lp Li [] [] false) as [(p & s)|]; [|contradiction]. exists p, s. auto.
Qed.
Print Assumptions C25_sparsification_slow.

(** two threads meet inside the clique {1,2,3} of 0 -> 1, 0 -> 3, 1 -> 2, 1 -> 3, 2 -> 3 *)
Definition exLp := [0;3;6;8;9].
Definition exLi := [0;1;3; 1;2;3; 2;3; 3].

Example C25_case : wf_csc 4 exLp exLi /\ diag_first 4 exLp exLi /\ lower_tri 4 exLp exLi /\ sorted_cols 4 exLp exLi /\
  partialSparsification true 2 [] 4 9 exLp exLi [] [] true = Ok ([0;2;4;6;7], [0;1; 1;2; 2;3; 3]) /\
  partialSparsification true 1 [] 4 9 exLp exLi [] [] false = Ok ([0;2;4;6;7], [0;1; 1;2; 2;3; 3]).
Proof.
  splits; [now apply wf_cscb_ok|now apply diag_firstb_ok|now apply lower_trib_ok|now apply sorted_colsb_ok| |]; vm_compute; reflexivity.
Qed.

(** why this is enough: schedules of the sparsified graph are schedules of the graph *)
Section Transfer.
Variables (n : nat) (E E' : nat -> nat -> Prop) (no : nat) (lp pp np : list nat).
Hypothesis HB : forall u v, E' u v -> u < n /\ v < n.
Hypothesis HR : forall u v, E u v -> u < n /\ v < n /\ u <> v /\ reaches E' u v.
Hypothesis SW : sched_wf n no lp pp np.
Hypothesis SC : sched_complete n np.

Lemma node_scheduled x : x < n -> exists l p k, l < no /\ sched_at lp pp np l p k x.
Proof.
  intros Hx. destruct SW as (A1 & A2 & A3 & A4 & A5 & A6 & A7 & A8). destruct SC as (C1 & C2).
  destruct (inj_onto n (aget np) C1 C2 x Hx) as (k & Hk & Ek).
  destruct (bucket_exists (aget pp) lp.[no] k) as (p & P1 & P2); [lia|lia|].
  destruct (bucket_exists (aget lp) no p) as (l & L1 & L2); [lia|lia|]. exists l, p, k. split; auto. unfold sched_at. auto.
Qed.

(** any ordering of positions that is transitive and contains the edges contains the paths *)
Lemma reach_ordered (R : nat * nat * nat -> nat * nat * nat -> Prop) : (forall a b c, R a b -> R b c -> R a c) ->
  (forall u v lu pu ku lv pv kv, E' u v -> lu < no -> lv < no -> sched_at lp pp np lu pu ku u -> sched_at lp pp np lv pv kv v -> R (lu, pu, ku) (lv, pv, kv)) ->
  forall u v lu pu ku lv pv kv, E u v -> lu < no -> lv < no -> sched_at lp pp np lu pu ku u -> sched_at lp pp np lv pv kv v -> R (lu, pu, ku) (lv, pv, kv).
Proof.
  intros RT RE u v lu pu ku lv pv kv He Hlu Hlv Hu Hv. destruct (HR u v He) as (Bu & Bv & Hne & (k & Hc)).
  assert (G : forall u v k, chain E' u v k -> u = v \/ forall lu pu ku lv pv kv, lu < no -> lv < no ->
     sched_at lp pp np lu pu ku u -> sched_at lp pp np lv pv kv v -> R (lu, pu, ku) (lv, pv, kv)).
  { clear - RT RE HB HR SW SC. intros u v k Hc. induction Hc as [|u v w k Hc IH He]; auto. right.
    intros lu pu ku lw pw kw Hlu Hlw Hu Hw. destruct (HB _ _ He) as (Bv & Bw).
    destruct IH as [->|IH]; [eapply RE; eauto|].
    destruct (node_scheduled v Bv) as (lv & pv & kv & Hlv & Hv).
    eapply RT; [eapply IH; eauto|eapply RE; eauto]. }
  destruct (G u v k Hc) as [|G']; [contradiction|]. eapply G'; eauto.
Qed.
End Transfer.

Theorem C25_schedule_transfers :
  forall n Lp Li p s no lp pp np, wf_csc n Lp Li -> sparsified n Lp Li p s ->
  (valid_schedule n (edge n p s) no lp pp np -> valid_schedule n (edge n Lp Li) no lp pp np) /\
  (part_schedule n (edge n p s) no lp pp np -> part_schedule n (edge n Lp Li) no lp pp np).
Proof.
  intros n Lp Li p s no lp pp np W (S1 & S2 & S3 & S4 & S5 & S6 & S7).
  assert (HB : forall u v, edge n p s u v -> u < n /\ v < n) by (apply wf_edge_lt; auto).
  assert (HR : forall u v, edge n Lp Li u v -> u < n /\ v < n /\ u <> v /\ reaches (edge n p s) u v).
  { intros u v He. destruct (wf_edge_lt n Lp Li W u v He). splits; auto; [apply He|]. apply S6. now apply reaches_edge. }
  split; intros (SW & SC & SO); (split; [auto|split; [auto|]]); intros u v lu pu ku lv pv kv He Hlu Hlv Hu Hv.
  - apply (reach_ordered n (edge n Lp Li) (edge n p s) no lp pp np HB HR SW SC
      (fun a b => let '(la, pa, ka) := a in let '(lb, pb, kb) := b in la < lb \/ (la = lb /\ pa = pb /\ ka < kb)))
      with (u := u) (v := v); auto.
    intros ((la & pa) & ka) ((lb & pb) & kb) ((lc & pc) & kc). lia.
  - apply (reach_ordered n (edge n Lp Li) (edge n p s) no lp pp np HB HR SW SC
      (fun a b => let '(la, pa, ka) := a in let '(lb, pb, kb) := b in la < lb \/ (la = lb /\ pa = pb)))
      with (u := u) (v := v) (ku := ku) (kv := kv); auto.
    intros ((la & pa) & ka) ((lb & pb) & kb) ((lc & pc) & kc). lia.
Qed.
Print Assumptions C25_schedule_transfers.

(** * C26 *)

Theorem C26_serial_build_out_of_bounds :
  forall bins sched n nnz Lp Li ptr0 set0, 0 < n ->
  partialSparsification false bins sched n nnz Lp Li ptr0 set0 true = Err OOB.
Proof.
  intros bins sched n nnz Lp Li ptr0 set0 Hn. unfold partialSparsification, clique_labels.
  assert (G : wp (thread_cuts n Lp Li n (n * 2)) (fun cuts => 1 < length cuts /\ cuts.[0] = n /\ n < cuts.[1])).
  { unfold thread_cuts. wp1.
    apply (wp_while (fun st : list nat * nat => let '(cuts, col) := st in n <= col /\ ((cuts = [n] /\ col = n) \/ (1 < length cuts /\ cuts.[0] = n /\ n < cuts.[1])))
      (fun st => n * 2 - snd st)).
    - split; auto.
    - simpl. lia.
    - intros (cuts & col) (H1 & H2). wp1. cbn [snd]. destruct (Nat.ltb_spec col (n * 2)).
      + rewrite clique_width_out by auto. cbn [bind]. wp1. cbn [snd]. split; [|lia]. split; [lia|]. right. rewrite app_length. simpl.
        destruct H2 as [(-> & ->)|(K1 & K2 & K3)].
        * simpl. splits; auto; unfold aget; simpl; lia.
        * rewrite !aget_app1 by lia. splits; auto. lia.
      + destruct H2 as [(-> & ->)|K]; [lia|]. wp1. exact K. }
  unfold thread_writes. cbv zeta. unfold thread_start, thread_end. simpl (1 =? 1 - 1). cbv iota.
  replace (n / 1 * 1) with n by (rewrite Nat.div_1_r; lia). replace (n / 1 * (1 + 1)) with (n * 2) by (rewrite Nat.div_1_r; lia).
  destruct (thread_cuts n Lp Li n (n * 2)) as [cuts|]; [|contradiction]. destruct G as (G1 & G2 & G3). cbn [bind].
  destruct (length cuts - 1) as [|m] eqn:Em; [lia|]. cbn [seq flat_map]. rewrite G2.
  destruct (cuts.[1] - n) as [|m'] eqn:Em'; [lia|]. cbn [seq map app]. unfold do_writes. cbn [foreach fst snd].
  rewrite wr_oob by (rewrite repeat_length; lia). reflexivity.
Qed.
Print Assumptions C26_serial_build_out_of_bounds.

(** * C58 *)

(** two threads store to the same cell without synchronisation, with different values *)
Theorem C58_labels_race :
  exists n Lp Li bins t t' ws ws' j v v', wf_csc n Lp Li /\ diag_first n Lp Li /\ lower_tri n Lp Li /\ sorted_cols n Lp Li /\
    t < bins /\ t' < bins /\ t <> t' /\
    thread_writes n Lp Li bins t = Ok ws /\ thread_writes n Lp Li bins t' = Ok ws' /\
    In (j, v) ws /\ In (j, v') ws' /\ v <> v'.
Proof.
  exists 4, exLp, exLi, 2, 0, 1. eexists. eexists. exists 2, 1, 2.
  destruct C25_case as (H1 & H2 & H3 & H4 & _). splits; auto; try lia; try (vm_compute; reflexivity); vm_compute; auto 10.
Qed.
Print Assumptions C58_labels_race.

(** so the result is not a function of the graph: another interleaving, or another number of
    threads, gives another (also correct) graph *)
Theorem C58_result_varies :
  exists n nnz Lp Li bins sched sched', wf_csc n Lp Li /\ diag_first n Lp Li /\ lower_tri n Lp Li /\ sorted_cols n Lp Li /\
    partialSparsification true bins sched n nnz Lp Li [] [] true <> partialSparsification true bins sched' n nnz Lp Li [] [] true /\
    partialSparsification true bins sched n nnz Lp Li [] [] true <> partialSparsification true 1 [] n nnz Lp Li [] [] true.
Proof.
  exists 4, 9, exLp, exLi, 2, [], [1;1]. destruct C25_case as (H1 & H2 & H3 & H4 & _). splits; auto; vm_compute; discriminate.
Qed.
Print Assumptions C58_result_varies.

(** * C59 *)

(** the entries are appended to what the caller's vector holds, the pointers start from zero *)
Theorem C59_stale_output_vectors :
  forall bins sched n nnz Lp Li ptr0 set0, wf_csc n Lp Li -> diag_first n Lp Li -> lower_tri n Lp Li -> 0 < n -> 0 < bins ->
  exists p s, partialSparsification true bins sched n nnz Lp Li ptr0 set0 true = Ok (p, set0 ++ s) /\
    p.[0] = ptr0.[0] /\ sparsified n Lp Li (upd p 0 0) s.
Proof.
  intros bins sched n nnz Lp Li ptr0 set0 W HD HT Hn HB.
  assert (G : wp (partialSparsification true bins sched n nnz Lp Li ptr0 set0 true) (fun r => exists s, snd r = set0 ++ s /\ (fst r).[0] = ptr0.[0] /\
     sparsified n Lp Li (upd (fst r) 0 0) s)).
  { apply sparse_clique_wp; auto. intros ptr set T E. simpl. exists set. splits; auto; apply T. }
  destruct (partialSparsification true bins sched n nnz Lp Li ptr0 set0 true) as [(p & s)|]; [|contradiction].
  destruct G as (s1 & E1 & E2 & E3). simpl in *. subst s. exists p, s1. auto.
Qed.
Print Assumptions C59_stale_output_vectors.

(** a second call on the same vectors leaves the graph of the first call *)
Theorem C59_second_call_refuted :
  ~ (forall bins sched n nnz Lp Li ptr0 set0 p s, wf_csc n Lp Li -> diag_first n Lp Li -> lower_tri n Lp Li -> 0 < n -> 0 < bins ->
     sparsified n Lp Li ptr0 set0 -> partialSparsification true bins sched n nnz Lp Li ptr0 set0 true = Ok (p, s) -> sparsified n Lp Li p s).
Proof.
  intros H. pose proof C25_case as (H1 & H2 & H3 & H4 & _).
  destruct (C25_sparsification_clique 1 [] 4 9 exLp exLi H1 H2 H3 ltac:(lia) ltac:(lia)) as (p & s & E1 & S1).
  assert (E2 : exists p' s', partialSparsification true 1 [] 4 9 exLp exLi [] [] true = Ok (p', s') /\ 
     exists p2, partialSparsification true 1 [] 4 9 exLp exLi p' s' true = Ok (p2, s' ++ s') /\ p2 = p' /\ length (s' ++ s') <> p2.[4]).
  { do 2 eexists. split; [vm_compute; reflexivity|]. eexists. split; [vm_compute; reflexivity|]. split; [reflexivity|]. vm_compute. discriminate. }
  destruct E2 as (p' & s' & E2 & p2 & E3 & E4 & E5). rewrite E1 in E2. injection E2 as <- <-.
  destruct (H 1 [] 4 9 exLp exLi p s p2 (s ++ s) H1 H2 H3 ltac:(lia) ltac:(lia) S1 ltac:(subst p2; exact E3)) as (_ & _ & K & _). contradiction.
Qed.
Print Assumptions C59_second_call_refuted.
