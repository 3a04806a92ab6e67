(** C114, C115: the profiling functions of example/sptrsv_src/executor.cpp. *)
From Verif Require Import Base Lib Lib2 Spec Check CheckS SpecSolve L_SpTRSV2 M_Stat.
From Coq Require Import ZifyBool ZifyNat Permutation.

(** * C114 *)

(** number of rows i >= 1 entries of which (the last one left out) lie in column i - 1,
    counted with repetition *)
Definition reuse_of (Lp Li : list nat) (i : nat) : nat :=
  length (filter (fun k => S Li.[k] =? i) (seq Lp.[i] (Lp.[S i] - 1 - Lp.[i]))).

Definition total (f : nat -> nat) (a b : nat) : nat := list_sum (map f (seq a (b - a))).

Lemma list_sum_snoc l x : list_sum (l ++ [x]) = list_sum l + x.
Proof. rewrite list_sum_app. cbn. lia. Qed.

Lemma total_S f a b : a <= b -> total f a (S b) = total f a b + f b.
Proof.
  intros H. unfold total. replace (S b - a) with (S (b - a)) by lia. rewrite seq_S, map_app, list_sum_app. cbn [map list_sum fold_right].
  replace (a + (b - a)) with b by lia. cbn. lia.
Qed.
Lemma total_nil f a : total f a a = 0.
Proof. unfold total. now rewrite Nat.sub_diag. Qed.

Theorem C114_solve_counts :
  forall n Lp Li, wf_csc n Lp Li -> (forall i, i < n -> Lp.[i] < Lp.[S i]) ->
  fs_csr_stat n Lp Li = Ok (2 * (Lp.[n] - n) + n, 3 * (Lp.[n] - n) + 2 * n, total (reuse_of Lp Li) 1 n).
Proof.
  intros n Lp Li W NE. pose proof W as (W1 & W2 & W3 & W4 & W5).
  enough (G : wp (fs_csr_stat n Lp Li) (fun r => r = (2 * (Lp.[n] - n) + n, 3 * (Lp.[n] - n) + 2 * n, total (reuse_of Lp Li) 1 n))).
  { apply wp_ok in G. destruct G as (r & E & ->). exact E. }
  unfold fs_csr_stat. wp1.
  assert (GE : forall i, i <= n -> i <= Lp.[i]).
  { induction i as [|i IH]; intros Hi; [lia|]. pose proof (NE i ltac:(lia)). pose proof (IH ltac:(lia)). lia. }
  apply (wp_for (fun i '(fl, me) => fl = 2 * (Lp.[i] - i) + i /\ me = 3 * (Lp.[i] - i) + 2 * i)); [lia| | |].
  - rewrite W2. auto.
  - intros i [fl me] Hi [-> ->]. pose proof (NE i ltac:(lia)). pose proof (GE i ltac:(lia)). wp1. wp1; [lia|]. wp1. wp1; [lia|]. wp1.
    apply (wp_for (fun k '(fl, me) => fl = 2 * (Lp.[i] - i) + i + 2 * (k - Lp.[i]) /\ me = 3 * (Lp.[i] - i) + 2 * i + 3 * (k - Lp.[i]))); [lia| | |].
    + split; lia.
    + intros k [fl me] Hk [-> ->]. wp1. split; lia.
    + intros [fl me] [-> ->]. wp1. split; lia.
  - intros [fl me] [-> ->]. cbn [bind]. wp1.
    assert (HR : wp (for_ 1 n (fun i reuse =>
      a <- rd Lp i ;; b <- rd Lp (S i) ;;
      for_ a (b - 1) (fun j reuse => c <- rd Li j ;; Ok (if c =? i - 1 then S reuse else reuse)) reuse) 0) (fun r => r = total (reuse_of Lp Li) 1 n)).
    { destruct (le_lt_dec n 1) as [Hn|Hn].
      { rewrite for_nil by lia. wp1. unfold total. now replace (n - 1) with 0 by lia. }
      apply (wp_for (fun i r => r = total (reuse_of Lp Li) 1 i)); [lia| |  |auto].
      - now rewrite total_nil.
      - intros i r Hi ->. pose proof (NE i ltac:(lia)). pose proof (wf_Lp_mono n Lp Li W (S i) n ltac:(lia) ltac:(lia)).
        wp1. wp1; [lia|]. wp1. wp1; [lia|].
        apply (wp_for (fun k r => r = total (reuse_of Lp Li) 1 i + length (filter (fun k => S Li.[k] =? i) (seq Lp.[i] (k - Lp.[i]))))); [lia| | |].
        + rewrite Nat.sub_diag. cbn. lia.
        + intros k r Hk ->. wp1. wp1; [lia|]. wp1. replace (S k - Lp.[i]) with (S (k - Lp.[i])) by lia.
          rewrite seq_S, filter_app, app_length. replace (Lp.[i] + (k - Lp.[i])) with k by lia. cbn [filter].
          destruct (Nat.eqb_spec Li.[k] (i - 1)), (Nat.eqb_spec (S Li.[k]) i); cbn [length]; lia.
        + intros r ->. rewrite total_S by lia. reflexivity. }
    eapply wp_mono; [exact HR|]. intros r ->. wp1. auto.
Qed.
Print Assumptions C114_solve_counts.

Example C114_case : wf_csc 4 [0;1;3;5;8] [0;0;1;1;2;0;2;3] /\ (forall i, i < 4 -> [0;1;3;5;8].[i] < [0;1;3;5;8].[S i]) /\
  fs_csr_stat 4 [0;1;3;5;8] [0;0;1;1;2;0;2;3] = Ok (12, 20, 3).
Proof.
  split; [now apply wf_cscb_ok|]. split; [|reflexivity]. intros i Hi. do 4 (destruct i as [|i]; [vm_compute; lia|]). lia.
Qed.

(** * C115 *)

(** entries of the rows *)
Definition work (Lp : list nat) (rows : list nat) : nat := list_sum (map (fun i => Lp.[S i] - Lp.[i]) rows).

(** the work of thread [t] among the iterations [a..b): those it executes *)
Definition load (Lp : list nat) (rows : nat -> list nat) (tid : nat -> nat) (a b t : nat) : nat :=
  total (fun j => if tid j =? t then work Lp (rows j) else 0) a b.

(** [d] is the largest difference between two threads *)
Definition largest_gap (f : nat -> nat) (threads d : nat) : Prop :=
  (forall s t, s < threads -> t < threads -> f s <= f t + d) /\
  exists s t, s < threads /\ t < threads /\ f s = f t + d.

Section Bal.
Variables (threads : nat) (tid : nat -> nat -> nat) (Lp : list nat) (n : nat).
Hypothesis HT : 0 < threads.
Hypothesis TB : forall l j, tid l j < threads.
Hypothesis LL : n < length Lp.

Lemma upd_same (l : list nat) i : i < length l -> upd l i l.[i] = l.
Proof.
  intros Hi. apply list_ext; [now rewrite upd_length|]. intros j Hj. rewrite aget_upd by auto. destruct (Nat.eqb_spec j i) as [->|]; auto.
Qed.
Lemma upd_twice (l : list nat) i x y : upd (upd l i x) i y = upd l i y.
Proof. revert i. induction l as [|a l IH]; intros [|i]; cbn; auto. now rewrite IH. Qed.

(** executing a list of rows on thread [t] adds their work to its cost *)
Lemma rows_cost_wp (src : list nat) a b t cost (Q : list nat -> Prop) : a <= b -> b <= length src -> (forall k, a <= k < b -> src.[k] < n) -> t < length cost ->
  Q (upd cost t (cost.[t] + work Lp (slice src a b))) ->
  wp (for_ a b (fun k cost => i <- rd src k ;; add_cost Lp t i cost) cost) Q.
Proof.
  intros Hab Hb HR Ht HQ.
  apply (wp_for (fun k c => c = upd cost t (cost.[t] + work Lp (slice src a k)))); [lia| | |intros c ->; auto].
  - rewrite slice_nil by lia. cbn. rewrite Nat.add_0_r. symmetry. now apply upd_same.
  - intros k c Hk ->. pose proof (HR k Hk). unfold add_cost. wp1. wp1; [lia|]. wp1. wp1; [lia|]. wp1. wp1; [lia|].
    wp1. wp1; [rewrite upd_length; lia|]. wp1; [rewrite upd_length; lia|]. rewrite upd_twice, aget_upd_eq by auto. f_equal.
    rewrite (slice_app src a k (S k)) by lia. rewrite (slice_cons src k) by lia. rewrite (slice_nil src (S k)) by lia. unfold work. rewrite map_app, list_sum_app. cbn. lia.
Qed.

Definition cost_at (rows : nat -> list nat) (l a b : nat) : list nat := map (load Lp rows (tid l) a b) (seq 0 threads).

Lemma cost_at_0 rows l a : cost_at rows l a a = repeat 0 threads.
Proof.
  unfold cost_at, load. apply list_ext; [now rewrite map_length, seq_length, repeat_length|].
  intros i Hi. rewrite map_length, seq_length in Hi. rewrite aget_map_seq, aget_repeat by auto. apply total_nil.
Qed.

Lemma cost_at_S rows l a b : a <= b ->
  cost_at rows l a (S b) = upd (cost_at rows l a b) (tid l b) ((cost_at rows l a b).[tid l b] + work Lp (rows b)).
Proof.
  intros Hab. apply list_ext; [unfold cost_at; now rewrite upd_length, !map_length|].
  intros i Hi. unfold cost_at in Hi. rewrite map_length, seq_length in Hi. pose proof (TB l b).
  rewrite aget_upd by (unfold cost_at; rewrite map_length, seq_length; auto).
  unfold cost_at. rewrite !aget_map_seq by auto. unfold load. rewrite total_S by lia.
  destruct (Nat.eqb_spec i (tid l b)) as [->|]; destruct (Nat.eqb_spec (tid l b) (tid l b)); try lia.
  destruct (Nat.eqb_spec (tid l b) i); lia.
Qed.

Lemma isort_last_max (l : list nat) : l <> [] -> exists m, rd (rev (isort l)) 0 = Ok m /\ In m l /\ forall x, In x l -> x <= m.
Proof.
  intros HL. assert (HN : length (isort l) <> 0). { intros E. apply HL. destruct (isort l) eqn:EI; [|discriminate].
    destruct l as [|x l]; auto. exfalso. assert (In x (isort (x :: l))) by (apply isort_In; now left). rewrite EI in H. destruct H. }
  exists (rev (isort l)).[0]. split; [apply rd_ok; rewrite rev_length; lia|].
  assert (G : forall j, j < length (isort l) -> (rev (isort l)).[j] = (isort l).[length (isort l) - 1 - j]).
  { intros j Hj. unfold aget. rewrite rev_nth by lia. f_equal. lia. }
  rewrite G by lia. split; [apply isort_In, aget_In; lia|]. intros x Hx. apply isort_In, In_aget in Hx. destruct Hx as (i & Hi & <-).
  pose proof (isort_sorted l) as HS. destruct (Nat.eq_dec i (length (isort l) - 1)) as [->|]; [rewrite Nat.sub_0_r; lia|].
  apply HS; lia.
Qed.

Lemma spread_wp (f : nat -> nat) (Q : nat -> Prop) : (forall d, largest_gap f threads d -> Q d) ->
  wp (spread true threads (map f (seq 0 threads))) Q.
Proof.
  intros HQ. unfold spread, stat_len. wp1. set (cost := map f (seq 0 threads)).
  assert (HC : forall i, i < threads -> cost.[i] = f i) by (intros; unfold cost; now rewrite aget_map_seq).
  assert (HL : length cost = threads) by (unfold cost; now rewrite map_length, seq_length).
  set (gap := fun i j => (f i - f j) + (f j - f i)).
  apply (wp_for (fun i temp => forall x, In x temp <-> exists s t, s < i /\ s < t /\ t < threads /\ x = gap s t)); [lia| | |].
  - intros x. split; [intros []|]. intros (s & t & Hs & _). lia.
  - intros i temp Hi IH.
    apply (wp_for (fun j temp => forall x, In x temp <-> exists s t, (s < i \/ (s = i /\ t < j)) /\ s < t /\ t < threads /\ x = gap s t)); [lia| | |].
    + intros x. rewrite IH. split; intros (s & t & A & B & C); exists s, t; repeat split; auto; lia.
    + intros j temp2 Hj IH2. wp1. wp1; [lia|]. wp1. wp1; [lia|]. wp1. rewrite !HC by lia. intros x. rewrite in_app_iff, IH2. cbn [In]. split.
      * intros [(s & t & A & B & C)|[<-|[]]]; [exists s, t; repeat split; auto; lia|]. exists i, j. repeat split; auto; lia.
      * intros (s & t & A & B & C & D). destruct (Nat.eq_dec s i) as [->|]; [destruct (Nat.eq_dec t j) as [->|]|].
        -- right. left. rewrite D. reflexivity.
        -- left. exists i, t. repeat split; auto; lia.
        -- left. exists s, t. repeat split; auto; lia.
    + intros temp2 IH2 x. rewrite IH2. split; intros (s & t & A & B & C & D); exists s, t; repeat split; auto; lia.
  - intros temp IH. destruct (Nat.eqb_spec (length temp) 0) as [E0|E0].
    + wp1. apply HQ. destruct temp; [|discriminate]. assert (threads = 1).
      { destruct (Nat.eq_dec threads 1); auto. exfalso. destruct (proj2 (IH (gap 0 1))); exists 0, 1. repeat split; auto; lia. }
      split; [intros s t Hs Ht; assert (s = t) as -> by lia; lia|]. exists 0, 0. lia.
    + destruct (isort_last_max temp ltac:(intros ->; auto)) as (m & -> & Hm & HM). wp1. apply HQ. split.
      * intros s t Hs Ht. destruct (Nat.lt_trichotomy s t) as [H|[->|H]]; [| lia|].
        -- pose proof (HM (gap s t) (proj2 (IH _) ltac:(exists s, t; repeat split; auto))). unfold gap in *. lia.
        -- pose proof (HM (gap t s) (proj2 (IH _) ltac:(exists t, s; repeat split; auto))). unfold gap in *. lia.
      * apply IH in Hm. destruct Hm as (s & t & A & B & C & ->). unfold gap. destruct (le_lt_dec (f s) (f t)); [exists t, s|exists s, t]; lia.
Qed.

(** the common shape of the three functions *)
Lemma stat_wp (no : nat) (lp lcost : list nat) (rows : nat -> list nat) (body : nat -> nat -> list nat -> res (list nat)) (Q : list nat -> Prop) :
  no < length lp -> (forall l, l < no -> lp.[l] <= lp.[S l]) -> no <= length lcost ->
  (forall l j cost (P : list nat -> Prop), l < no -> lp.[l] <= j < lp.[S l] -> length cost = threads ->
     P (upd cost (tid l j) (cost.[tid l j] + work Lp (rows j))) -> wp (body l j cost) P) ->
  (forall r, length r = length lcost -> (forall l, l < no -> largest_gap (load Lp rows (tid l) lp.[l] lp.[S l]) threads r.[l]) ->
     (forall l, no <= l -> l < length lcost -> r.[l] = lcost.[l]) -> Q r) ->
  wp (for_ 0 no (fun l lcost =>
    a <- rd lp l ;; b <- rd lp (S l) ;;
    cost <- for_ a b (body l) (repeat 0 threads) ;;
    s <- spread true threads cost ;; wr lcost l s) lcost) Q.
Proof.
  intros HL HM HC HB HQ.
  apply (wp_for (fun l r => length r = length lcost /\ (forall l', l' < l -> largest_gap (load Lp rows (tid l') lp.[l'] lp.[S l']) threads r.[l']) /\
     (forall l', l <= l' -> l' < length lcost -> r.[l'] = lcost.[l']))); [lia| | |].
  - split; auto. split; auto. intros; lia.
  - intros l r Hl (I1 & I2 & I3). pose proof (HM l ltac:(lia)). wp1. wp1; [lia|]. wp1. wp1; [lia|]. wp1.
    apply (wp_for (fun j c => c = cost_at rows l lp.[l] j)); [lia|symmetry; apply cost_at_0| |].
    + intros j c Hj ->. apply HB; auto; [lia|unfold cost_at; now rewrite map_length, seq_length|]. symmetry. apply cost_at_S. lia.
    + intros c ->. wp1. apply spread_wp. intros d Hd. wp1; [lia|]. split; [now rewrite upd_length|]. split.
      * intros l' Hl'. rewrite aget_upd by lia. destruct (Nat.eqb_spec l' l) as [->|]; auto. apply I2. lia.
      * intros l' Hl' Hl2. rewrite aget_upd_ne by lia. apply I3; lia.
  - intros r (I1 & I2 & I3). apply HQ; auto.
Qed.
End Bal.

(** every entry written is the largest difference between the loads of two threads in that
    level, for every way of sharing the parts of a level between threads *)
Theorem C115_lbc_balance :
  forall threads tid n Lp no lp pp np lcost, 0 < threads -> (forall l j, tid l j < threads) -> n < length Lp ->
  sched_wf n no lp pp np -> (forall k, k < n -> np.[k] < n) -> no <= length lcost ->
  exists r, sptrsv_csr_lbc_stat true threads tid Lp no lp pp np lcost = Ok r /\ length r = length lcost /\
    (forall l, l < no -> largest_gap (load Lp (fun j => slice np pp.[j] pp.[S j]) (tid l) lp.[l] lp.[S l]) threads r.[l]) /\
    (forall l, no <= l -> l < length lcost -> r.[l] = lcost.[l]).
Proof.
  intros threads tid n Lp no lp pp np lcost HT TB LL (S1 & S2 & S3 & S4 & S5 & S6 & S7 & S8) HN HC. apply wp_ok.
  unfold sptrsv_csr_lbc_stat, stat_len, stat_tid.
  apply (stat_wp threads tid Lp n HT TB LL no lp lcost (fun j => slice np pp.[j] pp.[S j])); auto.
  intros l j cost P Hl Hj HLc HP. assert (lp.[S l] <= lp.[no]) by (apply (mono_le (aget lp) no); auto; lia).
  pose proof (S6 j ltac:(lia)). assert (pp.[S j] <= n) by (rewrite <- S7; apply (mono_le (aget pp) lp.[no]); auto; lia).
  wp1. wp1; [lia|]. wp1. wp1; [lia|]. eapply (rows_cost_wp threads tid Lp n); eauto; [lia| |rewrite HLc; auto]. intros k Hk. apply HN. lia.
Qed.
Print Assumptions C115_lbc_balance.

Theorem C115_levelset_balance :
  forall threads tid n ng Lp gp gs k lp ls lcost, 0 < threads -> (forall l j, tid l j < threads) -> n < length Lp ->
  group_partition n ng gp gs -> ng < length gp -> n <= length gs -> level_partition ng k lp ls -> k < length lp -> ng <= length ls -> k <= length lcost ->
  exists r, fs_csr_levelset_stat true threads tid Lp gp gs k lp ls lcost = Ok r /\ length r = length lcost /\
    (forall l, l < k -> largest_gap (load Lp (fun j => slice gs gp.[ls.[j]] gp.[S ls.[j]]) (tid l) lp.[l] lp.[S l]) threads r.[l]) /\
    (forall l, k <= l -> l < length lcost -> r.[l] = lcost.[l]).
Proof.
  intros threads tid n ng Lp gp gs k lp ls lcost HT TB LL GP LG LS (P1 & P2 & P3 & P4 & P5) HL HS HC. apply wp_ok.
  unfold fs_csr_levelset_stat, stat_len, stat_tid.
  apply (stat_wp threads tid Lp n HT TB LL k lp lcost (fun j => slice gs gp.[ls.[j]] gp.[S ls.[j]])); auto.
  intros l j cost P Hl Hj HLc HP. assert (lp.[S l] <= lp.[k]) by (apply (mono_le (aget lp) k); auto; lia).
  pose proof (P4 j ltac:(lia)) as Hg. destruct (group_le n ng gp gs _ GP Hg). wp1. wp1; [lia|]. wp1. wp1; [lia|]. wp1. wp1; [lia|].
  eapply (rows_cost_wp threads tid Lp n); eauto; [lia| |rewrite HLc; auto]. intros q Hq. apply GP. lia.
Qed.
Print Assumptions C115_levelset_balance.

Theorem C115_group_lbc_balance :
  forall threads tid n ng Lp gp gs no lp pp np lcost, 0 < threads -> (forall l j, tid l j < threads) -> n < length Lp ->
  group_partition n ng gp gs -> ng < length gp -> n <= length gs ->
  sched_wf ng no lp pp np -> (forall k, k < ng -> np.[k] < ng) -> no <= length lcost ->
  exists r, sptrsv_csr_group_lbc_stat true threads tid Lp no lp pp np gp gs lcost = Ok r /\ length r = length lcost /\
    (forall l, l < no -> largest_gap (load Lp (fun j => flat_map (fun g => slice gs gp.[g] gp.[S g]) (slice np pp.[j] pp.[S j])) (tid l) lp.[l] lp.[S l]) threads r.[l]) /\
    (forall l, no <= l -> l < length lcost -> r.[l] = lcost.[l]).
Proof.
  intros threads tid n ng Lp gp gs no lp pp np lcost HT TB LL GP LG LS (S1 & S2 & S3 & S4 & S5 & S6 & S7 & S8) HN HC. apply wp_ok.
  unfold sptrsv_csr_group_lbc_stat, stat_len, stat_tid.
  apply (stat_wp threads tid Lp n HT TB LL no lp lcost (fun j => flat_map (fun g => slice gs gp.[g] gp.[S g]) (slice np pp.[j] pp.[S j]))); auto.
  intros l j cost P Hl Hj HLc HP. assert (lp.[S l] <= lp.[no]) by (apply (mono_le (aget lp) no); auto; lia).
  pose proof (S6 j ltac:(lia)). assert (pp.[S j] <= ng) by (rewrite <- S7; apply (mono_le (aget pp) lp.[no]); auto; lia).
  pose proof (TB l j). wp1. wp1; [lia|]. wp1. wp1; [lia|].
  apply (wp_for (fun k c => c = upd cost (tid l j) (cost.[tid l j] + work Lp (flat_map (fun g => slice gs gp.[g] gp.[S g]) (slice np pp.[j] k))))); [lia| | |intros c ->; auto].
  - rewrite slice_nil by lia. cbn. rewrite Nat.add_0_r. symmetry. apply upd_same. lia.
  - intros k c Hk ->. pose proof (HN k ltac:(lia)) as Hg. destruct (group_le n ng gp gs _ GP Hg). wp1. wp1; [lia|]. wp1. wp1; [lia|]. wp1. wp1; [lia|].
    eapply (rows_cost_wp threads tid Lp n); eauto; [lia| |rewrite upd_length; lia|].
    + intros q Hq. apply GP. lia.
    + rewrite upd_twice, aget_upd_eq by lia. f_equal. rewrite (slice_app np pp.[j] k (S k)) by lia. rewrite (slice_cons np k) by lia. rewrite (slice_nil np (S k)) by lia.
      rewrite flat_map_app. unfold work. rewrite map_app, list_sum_app. cbn [flat_map]. rewrite app_nil_r. lia.
Qed.
Print Assumptions C115_group_lbc_balance.

(** without OpenMP the cost array has one element and element 1 is written: any complete schedule
    of at least one row *)
Theorem C115_without_openmp_out_of_bounds :
  forall threads tid n Lp no lp pp np lcost, 0 < n -> n < length Lp -> sched_wf n no lp pp np -> (forall k, k < n -> np.[k] < n) ->
  no <= length lcost ->
  sptrsv_csr_lbc_stat false threads tid Lp no lp pp np lcost = Err OOB.
Proof.
  intros threads tid n Lp no lp pp np lcost H0 LL (S1 & S2 & S3 & S4 & S5 & S6 & S7 & S8) HN HC.
  assert (HA : forall i cost, i < n -> length cost = 1 -> add_cost Lp 1 i cost = Err OOB).
  { intros i cost Hi Hc. unfold add_cost. rewrite !rd_ok by lia. cbn [bind]. now rewrite rd_oob by lia. }
  assert (HPb : forall p, p <= lp.[no] -> pp.[p] <= n) by (intros p Hp; rewrite <- S7; apply (mono_le (aget pp) lp.[no]); auto).
  assert (HLb : forall l, l <= no -> lp.[l] <= lp.[no]) by (intros l Hl; apply (mono_le (aget lp) no); auto).
  (* the loop of one part *)
  assert (PART : forall c d, c <= d -> d <= n -> for_ c d (fun k cost => i <- rd np k ;; add_cost Lp 1 i cost) [0] = if c <? d then Err OOB else Ok [0]).
  { intros c d Hcd Hd. destruct (Nat.ltb_spec c d); [|now rewrite for_nil by lia].
    rewrite for_step by lia. rewrite rd_ok by lia. cbn [bind]. rewrite HA; auto. apply HN. lia. }
  (* the loop of one level *)
  set (body := fun j cost => c <- rd pp j ;; d <- rd pp (S j) ;; for_ c d (fun k cost => i <- rd np k ;; add_cost Lp 1 i cost) cost).
  assert (LEV : forall m a, a + m <= lp.[no] -> for_ a (a + m) body [0] = if pp.[a] <? pp.[a + m] then Err OOB else Ok [0]).
  { induction m as [|m IH]; intros a Ha.
    - rewrite Nat.add_0_r. rewrite for_nil by lia. now rewrite Nat.ltb_irrefl.
    - rewrite for_step by lia. unfold body at 1. rewrite !rd_ok by lia. cbn [bind].
      pose proof (S6 a ltac:(lia)). pose proof (HPb (S a) ltac:(lia)).
      assert (pp.[S a] <= pp.[a + S m]) by (apply (mono_le (aget pp) lp.[no]); auto; lia).
      rewrite PART by lia. destruct (Nat.ltb_spec pp.[a] pp.[S a]).
      + destruct (Nat.ltb_spec pp.[a] pp.[a + S m]); [reflexivity|lia].
      + cbn [bind]. replace (a + S m) with (S a + m) by lia. rewrite IH by lia. replace (S a + m) with (a + S m) by lia.
        destruct (Nat.ltb_spec pp.[S a] pp.[a + S m]), (Nat.ltb_spec pp.[a] pp.[a + S m]); auto; lia. }
  unfold sptrsv_csr_lbc_stat, stat_len, stat_tid.
  assert (ALL : forall m l lc, l + m = no -> no <= length lc -> pp.[lp.[l]] < n -> for_ l (l + m) (fun l lcost =>
    a <- rd lp l ;; b <- rd lp (S l) ;; cost <- for_ a b body (repeat 0 1) ;; s <- spread false threads cost ;; wr lcost l s) lc = Err OOB).
  { induction m as [|m IH]; intros l lc Hl Hlc Hp.
    - exfalso. replace l with no in Hp by lia. lia.
    - rewrite for_step by lia. rewrite !rd_ok by lia. cbn [bind]. pose proof (S3 l ltac:(lia)). pose proof (HLb (S l) ltac:(lia)).
      replace lp.[S l] with (lp.[l] + (lp.[S l] - lp.[l])) by lia. cbn [repeat]. rewrite LEV by lia.
      replace (lp.[l] + (lp.[S l] - lp.[l])) with lp.[S l] by lia.
      destruct (Nat.ltb_spec pp.[lp.[l]] pp.[lp.[S l]]); [reflexivity|]. cbn [bind].
      assert (ES : spread false threads [0] = Ok 0) by reflexivity. rewrite ES. cbn [bind]. rewrite wr_ok by lia. cbn [bind].
      replace (l + S m) with (S l + m) by lia. apply IH; [lia|rewrite upd_length; auto|].
      assert (pp.[lp.[l]] <= pp.[lp.[S l]]) by (apply (mono_le (aget pp) lp.[no]); auto; lia). lia. }
  specialize (ALL no 0 lcost eq_refl HC). apply ALL. rewrite S2, S5. auto.
Qed.
Print Assumptions C115_without_openmp_out_of_bounds.

Example C115_case :
  let Lp := [0;1;3;5;8] in
  sched_wf 4 2 [0;2;3] [0;1;2;4] [0;1;2;3] /\ sched_complete 4 [0;1;2;3] /\
  sptrsv_csr_lbc_stat true 2 (fun _ j => j mod 2) Lp 2 [0;2;3] [0;1;2;4] [0;1;2;3] [7;7;7] = Ok [1;5;7] /\
  fs_csr_levelset_stat true 2 (fun _ j => j mod 2) Lp [0;1;2;4] [0;1;2;3] 2 [0;2;3] [0;1;2] [7;7;7] = Ok [1;5;7] /\
  sptrsv_csr_group_lbc_stat true 2 (fun _ j => j mod 2) Lp 2 [0;2;3] [0;1;2;3] [0;1;2] [0;1;2;4] [0;1;2;3] [7;7;7] = Ok [1;5;7] /\
  sptrsv_csr_lbc_stat false 2 (fun _ j => j mod 2) Lp 2 [0;2;3] [0;1;2;4] [0;1;2;3] [7;7;7] = Err OOB.
Proof.
  cbv zeta. assert (VS : valid_schedule 4 (fun _ _ => False) 2 [0;2;3] [0;1;2;4] [0;1;2;3]).
  { eapply valid_scheduleb_ok with (eb := fun _ _ => false); [intros ? ? []|vm_compute; reflexivity]. }
  split; [apply VS|]. split; [apply VS|]. vm_compute. auto.
Qed.
