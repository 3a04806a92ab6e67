(** C161: the ranges of the greedy groups and the mean size of the supernodes. *)
From Coq Require Import ZifyBool ZifyNat.
From Verif Require Import Base Lib Lib2 Spec M_Greedy L_Greedy P_Greedy M_Super SpecSuper L_Super P_Super M_Range.

Lemma range_copy ng gset range : length gset = S ng -> length range = S ng -> getGroupedRangeArray ng gset range (S ng) = Ok gset.
Proof.
  intros H1 H2. unfold getGroupedRangeArray. rewrite Nat.eqb_refl. cbn [negb].
  enough (G : wp (foreach gset (fun x '(range, k) => range <- wr range k x ;; Ok (range, S k)) (range, 0)) (fun '(r, _) => r = gset)).
  { apply wp_ok in G. destruct G as ([r k] & E & ->). rewrite E. reflexivity. }
  apply (wp_foreach (fun pre '(r, k) => k = length pre /\ length r = S ng /\ forall i, i < k -> r.[i] = gset.[i])).
  - splits; auto. intros i Hi. lia.
  - intros pre x post [r k] E (-> & L & H). rewrite E, app_length in H1. cbn [length] in H1. wp1. wp1; [lia|]. wp1.
    rewrite app_length, upd_length. cbn [length]. splits; auto; [lia|]. intros i Hi. rewrite aget_upd by lia.
    destruct (Nat.eqb_spec i (length pre)) as [->|]; [|apply H; lia]. rewrite E. unfold aget. now rewrite app_nth2, Nat.sub_diag by lia.
  - intros [r k] (-> & L & H). apply nth_ext with (d := 0) (d' := 0); [lia|]. intros i Hi. apply H. lia.
Qed.

(** An array of group_size + 1 cells receives the borders of the groups: group g is the interval [range[g], range[g+1]). *)
Theorem C161_ranges : forall n m Ap Ai range, wf_csc n Ap Ai ->
  exists gset inv ng ch total, startGrouping n m Ap Ai = Ok (gset, inv, ng, ch, total) /\
    (length range = S ng -> exists r, getGroupedRangeArray ng gset range (S ng) = Ok r /\ length r = S ng /\ r.[0] = 0 /\ r.[ng] = n /\
      (forall g, g < ng -> r.[g] < r.[S g]) /\ forall v g, v < n -> (inv.[v] = g <-> g < ng /\ r.[g] <= v < r.[S g])) /\
    (forall size, size <> S ng -> getGroupedRangeArray ng gset range size = Err Throw).
Proof.
  intros n m Ap Ai range W. destruct (C127_groups n m Ap Ai W) as (gset & inv & ng & ch & total & E & IV & _).
  exists gset, inv, ng, ch, total. split; auto. destruct IV as (L1 & L2 & G0 & Gn & GI & V).
  split.
  - intros HR. exists gset. rewrite range_copy by auto. splits; auto. intros v g Hv. destruct (V v Hv) as (V1 & V2). split; [intros <-; auto|].
    intros (Hg & Hr). destruct (Nat.lt_trichotomy inv.[v] g) as [C|[C|C]]; auto; exfalso.
    + assert (gset.[S inv.[v]] <= gset.[g]) by (apply (mono_le (aget gset) ng); auto; [|lia]; intros i Hi; specialize (GI i Hi); lia). lia.
    + assert (gset.[S g] <= gset.[inv.[v]]) by (apply (mono_le (aget gset) ng); auto; [|lia]; intros i Hi; specialize (GI i Hi); lia). lia.
  - intros size Hs. unfold getGroupedRangeArray. destruct (Nat.eqb_spec size (S ng)); [easy|reflexivity].
Qed.
Print Assumptions C161_ranges.

Lemma avg_ok n num c : length c = S num -> c.[0] = 0 -> (forall i, i < num -> c.[i] <= c.[S i]) -> c.[num] = n -> getAvgSuperNode num c = Ok (n, num).
Proof.
  intros L H0 HM HN. unfold getAvgSuperNode.
  enough (G : wp (for_ 0 num (fun i size => b <- rd c (S i) ;; a <- rd c i ;; Ok (size + (b - a))) 0) (fun s => s = n)).
  { apply wp_ok in G. destruct G as (s & E & ->). rewrite E. reflexivity. }
  apply (wp_for (fun i s => s = c.[i])); [lia|auto| |intros s ->; auto].
  intros i s Hi ->. pose proof (HM i ltac:(lia)). wp1. wp1; [lia|]. wp1. wp1; [lia|]. wp1. lia.
Qed.

Lemma avg_runs n w same c : max_runs n w same c -> getAvgSuperNode (length c - 1) c = Ok (n, length c - 1) /\ (0 < n -> 0 < length c - 1).
Proof.
  intros (L & H0 & HN & HS). split.
  - apply avg_ok; auto; [lia|]. intros i Hi. destruct (HS i ltac:(lia)) as ((H & _) & _). lia.
  - intros Hn. destruct (length c - 1) eqn:E; [|lia]. lia.
Qed.

(** The mean size is the number of columns over the number of supernodes. *)
Theorem C161_average : forall n Cp Ci Rp Ri limit,
  (wf_csc n Cp Ci -> (forall u, u < n -> Cp.[u] < Cp.[S u]) ->
   exists c o m, createSupernode CSC_TYPE n Cp Ci Rp Ri limit = Ok (c, o, m) /\ getAvgSuperNode (length c - 1) c = Ok (n, length c - 1) /\ (0 < n -> 0 < length c - 1)) /\
  (wf_csc n Rp Ri -> (forall u, u < n -> Rp.[u] < Rp.[S u]) ->
   exists c o m, createSupernode CSR_TYPE n Cp Ci Rp Ri limit = Ok (c, o, m) /\ getAvgSuperNode (length c - 1) c = Ok (n, length c - 1) /\ (0 < n -> 0 < length c - 1)).
Proof.
  intros n Cp Ci Rp Ri limit. split; intros W NE.
  - destruct (C41_csc_supernodes n Cp Ci Rp Ri limit W NE) as (c & o & m & E & M & _). exists c, o, m. split; auto.
    eapply avg_runs; eauto.
  - destruct (C41_csr_supernodes n Cp Ci Rp Ri limit W NE) as (c & o & m & E & M & _). exists c, o, m. split; auto.
    eapply avg_runs; eauto.
Qed.
Print Assumptions C161_average.

Example C161_case : exists gset inv ng ch total,
  startGrouping 6 1 [0;3;5;6;8;10;11] [0;1;4; 1;4; 2; 3;5; 4;5; 5] = Ok (gset, inv, ng, ch, total) /\
  getGroupedRangeArray ng gset (repeat 9 (S ng)) (S ng) = Ok [0;2;3;4;6] /\
  getAvgSuperNode 3 [0;2;3;6] = Ok (6, 3).
Proof. do 5 eexists. splits; vm_compute; reflexivity. Qed.
