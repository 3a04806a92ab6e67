(** Proofs about runs of consecutive nodes. *)
From Coq Require Import ZifyBool ZifyNat.
From Verif Require Import Base Lib Lib2 Lib3 SpecRuns M_Runs.

Section Part.
Variable lk : nat -> bool.

(** the first [m] groups, ending before node [pos]; the last pointer may not be stored yet *)
Definition part_runs (m pos : nat) (gp inv : list nat) : Prop :=
  (m = 0 -> pos = 0) /\ (0 < m -> gp.[0] = 0) /\
  (forall g, S g < m -> gp.[g] < gp.[S g]) /\ (0 < m -> gp.[m - 1] < pos) /\
  (forall g v, S g < m -> gp.[g] <= v < gp.[S g] -> inv.[v] = g) /\
  (forall v, 0 < m -> gp.[m - 1] <= v < pos -> inv.[v] = m - 1) /\
  (forall v, S v < pos -> lk v = true <-> inv.[v] = inv.[S v]).

Lemma part_inv_le m pos gp inv : part_runs m pos gp inv -> forall v, v < pos -> inv.[v] < m.
Proof.
  intros (A0 & A1 & A2 & A3 & A4 & A5 & A6) v Hv. destruct m as [|m]; [lia|].
  destruct (Nat.lt_ge_cases v gp.[m]) as [H|H].
  - assert (G : forall k, k <= m -> v < gp.[k] -> inv.[v] < k).
    { induction k; intros Hk Hvk; [rewrite A1 in Hvk; lia|]. destruct (Nat.lt_ge_cases v gp.[k]) as [H'|H'].
      - specialize (IHk ltac:(lia) H'). lia.
      - rewrite (A4 k v); lia. }
    specialize (G m (le_n _) H). lia.
  - rewrite A5; auto; try lia. replace (S m - 1) with m by lia. lia.
Qed.

End Part.

Section Emit.
Variables (n : nat) (lk : nat -> bool) (next : list nat).
Hypothesis LN : length next = n.
Hypothesis NX : forall v, v < n -> next.[v] = if lk v then S v else 0.
Hypothesis LK : forall v, lk v = true -> S v < n.

Lemma emit_groups_wp gp0 gs0 inv0 (Q : _ -> Prop) : n < length gp0 -> n <= length gs0 -> n <= length inv0 ->
  (forall ng gp gs inv, length gp = length gp0 -> length gs = length gs0 -> length inv = length inv0 -> ng <= n ->
     runs n (fun v => lk v = true) ng gp gs inv -> Q (ng, (gp, gs, inv))) ->
  wp (emit_groups n next gp0 gs0 inv0) Q.
Proof.
  intros L1 L2 L3 HQ. unfold emit_groups. wp1.
  set (I := fun i (st : list bool * list nat * list nat * list nat * nat * nat) => let '(vis, gp, gs, inv, pos, index) := st in
    i <= pos <= n /\ index <= pos /\ length vis = n /\ length gp = length gp0 /\ length gs = length gs0 /\ length inv = length inv0 /\
    (forall v, v < n -> vis.[v] = (v <? pos)) /\ (forall v, v < pos -> gs.[v] = v) /\ part_runs lk index pos gp inv /\
    (0 < pos -> lk (pos - 1) = false)).
  apply (wp_for I).
  - lia.
  - unfold I. rewrite repeat_length. splits; auto; try lia.
    + intros v Hv. rewrite aget_repeat by auto. symmetry. apply Nat.ltb_ge. lia.
    + unfold part_runs. splits; intros; lia.
  - intros i [[[[[vis gp] gs] inv] pos] index] Hi (I1 & I2 & I3 & I4 & I5 & I6 & I7 & I8 & I9 & I10).
    wp1. wp1; [lia|]. rewrite I7 by lia. destruct (Nat.ltb_spec i pos) as [Hip|Hip].
    { wp1. unfold I. splits; auto; lia. }
    assert (pos = i) by lia. subst pos.
    wp1. wp1; [lia|]. wp1. wp1; [lia|]. wp1. wp1; [lia|]. wp1. wp1; [lia|]. wp1. wp1; [lia|]. rewrite NX by lia. wp1.
    set (J := fun (st : list bool * list nat * list nat * nat * nat) => let '(vis', gs', inv', pos', ch) := st in
      i < pos' <= n /\ length vis' = n /\ length gs' = length gs0 /\ length inv' = length inv0 /\
      (forall v, v < n -> vis'.[v] = (v <? pos')) /\ (forall v, v < pos' -> gs'.[v] = v) /\
      (forall v, v < i -> inv'.[v] = inv.[v]) /\ (forall v, i <= v < pos' -> inv'.[v] = index) /\
      (forall v, i <= v -> S v < pos' -> lk v = true) /\ ch = (if lk (pos' - 1) then pos' else 0)).
    apply (wp_while J (fun st => n - snd (fst st))).
    + unfold J. rewrite !upd_length. splits; auto; try lia.
      * intros v Hv. rewrite aget_upd by lia. destruct (Nat.eqb_spec v i) as [->|]; [symmetry; apply Nat.ltb_lt; lia|].
        rewrite I7 by auto. destruct (Nat.ltb_spec v i), (Nat.ltb_spec v (S i)); auto; lia.
      * intros v Hv. rewrite aget_upd by lia. destruct (Nat.eqb_spec v i) as [->|]; auto. apply I8. lia.
      * intros v Hv. rewrite aget_upd by lia. destruct (Nat.eqb_spec v i) as [->|]; auto. lia.
      * intros v Hv. rewrite aget_upd by lia. destruct (Nat.eqb_spec v i) as [->|]; auto. lia.
      * replace (S i - 1) with i by lia. reflexivity.
    + simpl. lia.
    + intros [[[[vis' gs'] inv'] pos'] ch] (J1 & J2 & J3 & J4 & J5 & J6 & J7 & J8 & J9 & J10). cbn [fst snd].
      destruct (lk (pos' - 1)) eqn:EL.
      * pose proof (LK _ EL) as HLK. subst ch. destruct (Nat.eqb_spec pos' 0); [lia|]. wp1. wp1; [lia|]. rewrite J5 by lia.
        destruct (Nat.ltb_spec pos' pos'); [lia|]. wp1. cbn [negb].
        wp1. wp1; [lia|]. wp1. wp1; [lia|]. wp1. wp1; [lia|]. wp1. wp1; [lia|]. wp1. cbn [fst snd]. split; [|lia].
        unfold J. rewrite !upd_length. splits; auto; try lia.
        { intros v Hv. rewrite aget_upd by lia. destruct (Nat.eqb_spec v pos') as [->|]; [symmetry; apply Nat.ltb_lt; lia|].
          rewrite J5 by auto. destruct (Nat.ltb_spec v pos'), (Nat.ltb_spec v (S pos')); auto; lia. }
        { intros v Hv. rewrite aget_upd by lia. destruct (Nat.eqb_spec v pos') as [->|]; auto. apply J6. lia. }
        { intros v Hv. rewrite aget_upd by lia. destruct (Nat.eqb_spec v pos') as [->|]; auto. lia. }
        { intros v Hv. rewrite aget_upd by lia. destruct (Nat.eqb_spec v pos') as [->|]; auto. apply J8. lia. }
        { intros v Hv Hv'. destruct (Nat.eq_dec (S v) pos') as [<-|]; [|apply J9; lia]. replace (S v - 1) with v in EL by lia. auto. }
        { rewrite NX by lia. replace (S pos' - 1) with pos' by lia. reflexivity. }
      * subst ch. destruct (Nat.eqb_spec 0 0); [|lia]. wp1. wp1.
        unfold I. rewrite upd_length. splits; auto; try lia.
        unfold part_runs in *. destruct I9 as (A0 & A1 & A2 & A3 & A4 & A5 & A6).
        splits; try lia.
        { intros _. rewrite aget_upd by lia. destruct (Nat.eqb_spec 0 index); [|apply A1; lia]. subst index. apply A0. auto. }
        { intros g Hg. rewrite !aget_upd by lia. destruct (Nat.eqb_spec g index); [lia|]. destruct (Nat.eqb_spec (S g) index); [|apply A2; lia].
          subst index. replace (S g - 1) with g in * by lia. apply A3. lia. }
        { intros _. replace (S index - 1) with index by lia. rewrite aget_upd_eq by lia. lia. }
        { intros g v Hg. rewrite !aget_upd by lia. destruct (Nat.eqb_spec g index); [lia|]. destruct (Nat.eqb_spec (S g) index) as [Eg|].
          - intros Hv. rewrite J7 by lia. rewrite A5; try lia. split; [|lia]. replace (index - 1) with g by lia. lia.
          - intros Hv. assert (gp.[S g] < i).
            { assert (G : forall k, S g <= k -> k < index -> gp.[S g] <= gp.[k]).
              { induction 1; auto. intros Hk. specialize (A2 m Hk). lia. }
              specialize (G (index - 1) ltac:(lia) ltac:(lia)). specialize (A3 ltac:(lia)). lia. }
            rewrite J7 by lia. apply A4; lia. }
        { intros v _. replace (S index - 1) with index by lia. rewrite aget_upd_eq by lia. intros Hv. apply J8. lia. }
        { intros v Hv. destruct (Nat.lt_total (S v) i) as [H|[H|H]].
          - rewrite !J7 by lia. apply A6. auto.
          - rewrite J7 by lia. rewrite (J8 (S v)) by lia. replace (i - 1) with v in I10 by lia. rewrite I10 by lia.
            split; [discriminate|]. intros E. exfalso. pose proof (part_inv_le lk index i gp inv) as G. unfold part_runs in G.
            specialize (G ltac:(splits; auto) v ltac:(lia)). lia.
          - rewrite !J8 by lia. split; auto. intros _. apply J9; lia. }
  - intros [[[[[vis gp] gs] inv] pos] index] (I1 & I2 & I3 & I4 & I5 & I6 & I7 & I8 & (A0 & A1 & A2 & A3 & A4 & A5 & A6) & I10).
    assert (pos = n) by lia. subst pos. wp1. wp1; [lia|]. wp1. apply HQ; auto; [now rewrite upd_length|].
    unfold runs. splits.
    + rewrite aget_upd by lia. destruct (Nat.eqb_spec 0 index); [apply A0; auto|apply A1; lia].
    + intros g Hg. rewrite !aget_upd by lia. destruct (Nat.eqb_spec g index); [lia|]. destruct (Nat.eqb_spec (S g) index); [|apply A2; lia].
      replace g with (index - 1) by lia. apply A3. lia.
    + now rewrite aget_upd_eq by lia.
    + auto.
    + intros g v Hg. rewrite !aget_upd by lia. destruct (Nat.eqb_spec g index); [lia|]. destruct (Nat.eqb_spec (S g) index); [|apply A4; lia].
      intros Hv. rewrite A5; try lia. split; [|lia]. replace (index - 1) with g by lia. lia.
    + intros v Hv. apply A6. auto.
Qed.
End Emit.

(** * The two inspectors *)

Lemma runs_iff n (P Q : nat -> Prop) ng gp gs inv : (forall v, S v < n -> (P v <-> Q v)) -> runs n P ng gp gs inv -> runs n Q ng gp gs inv.
Proof. intros H (A1 & A2 & A3 & A4 & A5 & A6). unfold runs. splits; auto. intros v Hv. rewrite <- A6 by auto. symmetry. auto. Qed.

Definition next_in_columnb (n : nat) (Lp Li : list nat) (v : nat) : bool :=
  (v <? n) && (1 <? Lp.[S v] - Lp.[v]) && (Li.[S Lp.[v]] =? S v).

Definition prev_in_rowb (n : nat) (Lp Li : list nat) (v : nat) : bool :=
  (S v <? n) && (1 <? Lp.[S (S v)] - Lp.[S v]) && (Li.[Lp.[S (S v)] - 2] =? v).

Lemma lp_len n Lp Li (W : wf_csc n Lp Li) i : i < n -> Lp.[i] <= Lp.[S i] /\ Lp.[S i] <= length Li.
Proof.
  intros Hi. destruct W as (W1 & W2 & W3 & W4 & W5). split; [auto|].
  assert (Lp.[S i] <= Lp.[n]) by (apply (mono_le (aget Lp) n); auto; lia). lia.
Qed.

Section Inspect.
Variables (n : nat) (Lp Li gp0 gs0 inv0 : list nat).
Hypothesis W : wf_csc n Lp Li.
Hypothesis L1 : n < length gp0.
Hypothesis L2 : n <= length gs0.
Hypothesis L3 : n <= length inv0.

Lemma child_csc_wp (Q : list (option nat) -> Prop) :
  (forall child, length child = n -> (forall i, i < n -> child.[i] = if 1 <? Lp.[S i] - Lp.[i] then Some Li.[S Lp.[i]] else None) -> Q child) ->
  wp (for_ 0 n (fun i child =>
    a <- rd Lp i ;; b <- rd Lp (S i) ;;
    if 1 <? b - a then c <- rd Li (S a) ;; wr child i (Some c) else wr child i None) (repeat None n)) Q.
Proof.
  intros HQ. pose proof W as (W1 & W2 & W3 & W4 & W5).
  apply (wp_for (fun m child => length child = n /\ forall i, i < m -> child.[i] = if 1 <? Lp.[S i] - Lp.[i] then Some Li.[S Lp.[i]] else None)).
  - lia.
  - rewrite repeat_length. split; auto. intros; lia.
  - intros i child Hi (Lc & Hc). destruct (lp_len n Lp Li W i ltac:(lia)) as (B1 & B2). wp1. wp1; [lia|]. wp1. wp1; [lia|].
    destruct (Nat.ltb_spec 1 (Lp.[S i] - Lp.[i])) as [H|H].
    + wp1. wp1; [lia|]. wp1; [lia|]. rewrite upd_length. split; auto. intros j Hj. rewrite aget_upd by lia.
      destruct (Nat.eqb_spec j i) as [->|]; [|apply Hc; lia]. destruct (Nat.ltb_spec 1 (Lp.[S i] - Lp.[i])); auto; lia.
    + wp1; [lia|]. rewrite upd_length. split; auto. intros j Hj. rewrite aget_upd by lia.
      destruct (Nat.eqb_spec j i) as [->|]; [|apply Hc; lia]. destruct (Nat.ltb_spec 1 (Lp.[S i] - Lp.[i])); auto; lia.
  - intros child (H1 & H2). auto.
Qed.

Lemma child_csr_wp (Q : list (option nat) -> Prop) :
  (forall child, length child = n -> (forall i, i < n -> child.[i] = if 1 <? Lp.[S i] - Lp.[i] then Some Li.[Lp.[S i] - 2] else None) -> Q child) ->
  wp (for_ 0 n (fun i child =>
    a <- rd Lp i ;; b <- rd Lp (S i) ;;
    if 1 <? b - a then c <- rd Li (b - 2) ;; wr child i (Some c) else wr child i None) (repeat None n)) Q.
Proof.
  intros HQ. pose proof W as (W1 & W2 & W3 & W4 & W5).
  apply (wp_for (fun m child => length child = n /\ forall i, i < m -> child.[i] = if 1 <? Lp.[S i] - Lp.[i] then Some Li.[Lp.[S i] - 2] else None)).
  - lia.
  - rewrite repeat_length. split; auto. intros; lia.
  - intros i child Hi (Lc & Hc). destruct (lp_len n Lp Li W i ltac:(lia)) as (B1 & B2). wp1. wp1; [lia|]. wp1. wp1; [lia|].
    destruct (Nat.ltb_spec 1 (Lp.[S i] - Lp.[i])) as [H|H].
    + wp1. wp1; [lia|]. wp1; [lia|]. rewrite upd_length. split; auto. intros j Hj. rewrite aget_upd by lia.
      destruct (Nat.eqb_spec j i) as [->|]; [|apply Hc; lia]. destruct (Nat.ltb_spec 1 (Lp.[S i] - Lp.[i])); auto; lia.
    + wp1; [lia|]. rewrite upd_length. split; auto. intros j Hj. rewrite aget_upd by lia.
      destruct (Nat.eqb_spec j i) as [->|]; [|apply Hc; lia]. destruct (Nat.ltb_spec 1 (Lp.[S i] - Lp.[i])); auto; lia.
  - intros child (H1 & H2). auto.
Qed.

Lemma inspection_spicocsc_v1_wp : wp (inspection_spicocsc_v1 n Lp Li gp0 gs0 inv0) (fun r => let '(ng, (gp, gs, inv)) := r in
  length gp = length gp0 /\ length gs = length gs0 /\ length inv = length inv0 /\ ng <= n /\ runs n (next_in_column Lp Li) ng gp gs inv).
Proof.
  unfold inspection_spicocsc_v1. wp1. apply child_csc_wp. intros child Lc Hc. wp1.
  apply (wp_for (fun m st => let '(next, pre) := st in length next = n /\ length pre = n /\
    forall v, v < n -> next.[v] = if (v <? m) && next_in_columnb n Lp Li v then S v else 0)).
  - lia.
  - rewrite !repeat_length. splits; auto. intros v Hv. rewrite aget_repeat by auto. destruct (Nat.ltb_spec v 0); [lia|reflexivity].
  - intros i [next pre] Hi (N1 & N2 & N3). wp1. wp1; [lia|]. rewrite Hc by lia.
    assert (G : forall b : bool, next_in_columnb n Lp Li i = b -> length (if b then upd next i (S i) else next) = n /\
       forall v, v < n -> (if b then upd next i (S i) else next).[v] = if (v <? S i) && next_in_columnb n Lp Li v then S v else 0).
    { intros b E. split; [destruct b; auto; now rewrite upd_length|]. intros v Hv. destruct (Nat.eq_dec v i) as [->|Hn].
      - rewrite E. destruct (Nat.ltb_spec i (S i)); [|lia]. cbn [andb]. destruct b; [rewrite aget_upd_eq by lia; auto|].
        rewrite N3 by auto. destruct (Nat.ltb_spec i i); [lia|reflexivity].
      - replace (v <? S i) with (v <? i) by (destruct (Nat.ltb_spec v i), (Nat.ltb_spec v (S i)); auto; lia).
        destruct b; [rewrite aget_upd_ne by lia|]; auto. }
    unfold next_in_columnb in G at 1. destruct (Nat.ltb_spec i n); [|lia]. cbn [andb] in G.
    destruct (Nat.ltb_spec 1 (Lp.[S i] - Lp.[i])) as [H1|H1].
    + destruct (Z.eqb_spec (Z.of_nat Li.[S Lp.[i]] - Z.of_nat i) 1) as [H2|H2].
      * assert (E : Li.[S Lp.[i]] = S i) by lia. rewrite E.
        assert (S i < n).
        { rewrite <- E. destruct (lp_len n Lp Li W i ltac:(lia)). destruct W as (W1 & W2 & W3 & W4 & W5). apply W5.
          assert (Lp.[S i] <= Lp.[n]) by (apply (mono_le (aget Lp) n); auto; lia). lia. }
        wp1. wp1; [lia|]. wp1. wp1; [lia|]. wp1. rewrite upd_length.
        destruct (G true) as (G1 & G2); [cbn [andb]; rewrite E; apply Nat.eqb_refl|]. rewrite upd_length in *. auto.
      * wp1. destruct (G false) as (G1 & G2); [cbn [andb]; apply Nat.eqb_neq; lia|]. auto.
    + wp1. destruct (G false) as (G1 & G2); [reflexivity|]. auto.
  - intros [next pre] (N1 & N2 & N3). apply (emit_groups_wp n (next_in_columnb n Lp Li)); auto.
    + intros v Hv. rewrite N3 by auto. destruct (Nat.ltb_spec v n); [reflexivity|lia].
    + intros v E. unfold next_in_columnb in E. apply andb_true_iff in E. destruct E as [E E3]. apply andb_true_iff in E. destruct E as [E1 E2].
      apply Nat.eqb_eq in E3. rewrite <- E3. destruct (lp_len n Lp Li W v ltac:(lia)). destruct W as (W1 & W2 & W3 & W4 & W5). apply W5.
      assert (Lp.[S v] <= Lp.[n]) by (apply (mono_le (aget Lp) n); auto; lia). lia.
    + intros ng gp gs inv K1 K2 K3 K4 K5. splits; auto. revert K5. apply runs_iff. intros v Hv. unfold next_in_columnb, next_in_column.
      rewrite !andb_true_iff, !Nat.ltb_lt, Nat.eqb_eq. lia.
Qed.

Lemma inspection_sptrsvcsr_v1_wp : wp (inspection_sptrsvcsr_v1 n Lp Li gp0 gs0 inv0) (fun r => let '(ng, (gp, gs, inv)) := r in
  length gp = length gp0 /\ length gs = length gs0 /\ length inv = length inv0 /\ ng <= n /\ runs n (prev_in_row Lp Li) ng gp gs inv).
Proof.
  unfold inspection_sptrsvcsr_v1. wp1. apply child_csr_wp. intros child Lc Hc. wp1.
  assert (HE : forall st : list nat * list nat, (let '(next, pre) := st in length next = n /\ length pre = n /\
    forall v, v < n -> next.[v] = if prev_in_rowb n Lp Li v then S v else 0) ->
    wp (let '(next, _) := st in emit_groups n next gp0 gs0 inv0) (fun r => let '(ng, (gp, gs, inv)) := r in
  length gp = length gp0 /\ length gs = length gs0 /\ length inv = length inv0 /\ ng <= n /\ runs n (prev_in_row Lp Li) ng gp gs inv)).
  { intros [next pre] (N1 & N2 & N3). apply (emit_groups_wp n (prev_in_rowb n Lp Li)); auto.
    + intros v E. unfold prev_in_rowb in E. apply andb_true_iff in E. destruct E as [E E3]. apply andb_true_iff in E. destruct E as [E1 E2]. lia.
    + intros ng gp gs inv K1 K2 K3 K4 K5. splits; auto. revert K5. apply runs_iff. intros v Hv. unfold prev_in_rowb, prev_in_row.
      rewrite !andb_true_iff, !Nat.ltb_lt, Nat.eqb_eq. lia. }
  destruct (Nat.le_gt_cases n 1) as [Hn1|Hn1].
  { replace (for_ 1 n) with (@for_ (list nat * list nat) 1 1) by (unfold for_; replace (n - 1) with 0 by lia; reflexivity).
    cbn. apply (HE (repeat 0 n, repeat 0 n)). rewrite !repeat_length. splits; auto. intros v Hv. rewrite aget_repeat by auto.
    unfold prev_in_rowb. destruct (Nat.ltb_spec (S v) n); [lia|reflexivity]. }
  apply (wp_for (fun m st => let '(next, pre) := st in length next = n /\ length pre = n /\
    forall v, v < n -> next.[v] = if (S v <? m) && prev_in_rowb n Lp Li v then S v else 0)).
  - lia.
  - rewrite !repeat_length. splits; auto. intros v Hv. rewrite aget_repeat by auto. destruct (Nat.ltb_spec (S v) 1); [lia|reflexivity].
  - intros i [next pre] Hi (N1 & N2 & N3). wp1. wp1; [lia|]. rewrite Hc by lia.
    assert (G : forall b : bool, prev_in_rowb n Lp Li (i - 1) = b -> length (if b then upd next (i - 1) i else next) = n /\
       forall v, v < n -> (if b then upd next (i - 1) i else next).[v] = if (S v <? S i) && prev_in_rowb n Lp Li v then S v else 0).
    { intros b E. split; [destruct b; auto; now rewrite upd_length|]. intros v Hv. destruct (Nat.eq_dec v (i - 1)) as [->|Hn].
      - rewrite E. destruct (Nat.ltb_spec (S (i - 1)) (S i)); [|lia]. cbn [andb]. destruct b; [rewrite aget_upd_eq by lia; lia|].
        rewrite N3 by auto. destruct (Nat.ltb_spec (S (i - 1)) i); [lia|reflexivity].
      - replace (S v <? S i) with (S v <? i) by (destruct (Nat.ltb_spec (S v) i), (Nat.ltb_spec (S v) (S i)); auto; lia).
        destruct b; [rewrite aget_upd_ne by lia|]; auto. }
    unfold prev_in_rowb in G at 1. replace (S (i - 1)) with i in G by lia. destruct (Nat.ltb_spec i n); [|lia]. cbn [andb] in G.
    destruct (Nat.ltb_spec 1 (Lp.[S i] - Lp.[i])) as [H1|H1].
    + destruct (Z.eqb_spec (Z.of_nat i - Z.of_nat Li.[Lp.[S i] - 2]) 1) as [H2|H2].
      * assert (E : Li.[Lp.[S i] - 2] = i - 1) by lia. rewrite E.
        wp1. wp1; [lia|]. wp1. wp1; [lia|]. wp1. rewrite (upd_length pre).
        destruct (G true) as (G1 & G2); [cbn [andb]; rewrite E; apply Nat.eqb_refl|]. rewrite upd_length in *. auto.
      * wp1. destruct (G false) as (G1 & G2); [cbn [andb]; apply Nat.eqb_neq; lia|]. auto.
    + wp1. destruct (G false) as (G1 & G2); [reflexivity|]. auto.
  - intros [next pre] (N1 & N2 & N3). apply (HE (next, pre)). splits; auto. intros v Hv. rewrite N3 by auto.
    unfold prev_in_rowb. destruct (Nat.ltb_spec (S v) n); reflexivity.
Qed.
End Inspect.

(** * Fixed-size blocks *)

Lemma NaiveGrouping_wp n gp0 gs0 inv0 blk : 0 < blk -> n < length gp0 -> n <= length gs0 -> n <= length inv0 ->
  wp (NaiveGrouping n gp0 gs0 inv0 blk) (fun r => let '(ng, (gp, gs, inv)) := r in
    length gp = length gp0 /\ length gs = length gs0 /\ length inv = length inv0 /\ ng <= n /\ runs n (same_block blk) ng gp gs inv).
Proof.
  intros HB L1 L2 L3. unfold NaiveGrouping. wp1.
  set (lk := fun v => negb (S v mod blk =? 0)).
  apply (wp_for (fun i st => let '(gp, gs, inv, pos, index) := st in pos = i /\ index <= i /\
    length gp = length gp0 /\ length gs = length gs0 /\ length inv = length inv0 /\ (forall v, v < i -> gs.[v] = v) /\ part_runs lk index i gp inv)).
  - lia.
  - splits; auto; try lia; unfold part_runs; splits; intros; lia.
  - intros i [[[[gp gs] inv] pos] index] Hi (I1 & I2 & I3 & I4 & I5 & I6 & I7). subst pos.
    destruct (Nat.eqb_spec blk 0); [lia|]. pose proof (part_inv_le lk index i gp inv I7) as HLE. destruct I7 as (A0 & A1 & A2 & A3 & A4 & A5 & A6).
    assert (HM : forall g, S g < index -> gp.[S g] < i).
    { intros g Hg. assert (G : forall k, S g <= k -> k < index -> gp.[S g] <= gp.[k]).
      { induction 1; auto. intros Hk. specialize (A2 m Hk). lia. }
      specialize (G (index - 1) ltac:(lia) ltac:(lia)). specialize (A3 ltac:(lia)). lia. }
    assert (HL : 0 < i -> (i mod blk =? 0) = negb (lk (i - 1))).
    { intros H. unfold lk. replace (S (i - 1)) with i by lia. now rewrite negb_involutive. }
    wp1. destruct (i mod blk =? 0) eqn:EM.
    + wp1. wp1; [lia|]. wp1. wp1. wp1; [lia|]. wp1. wp1; [lia|]. wp1. rewrite !upd_length. splits; auto; try lia.
      { intros v Hv. rewrite aget_upd by lia. destruct (Nat.eqb_spec v i); auto. apply I6. lia. }
      replace (S index - 1) with index by lia. unfold part_runs. splits; try lia.
      { intros _. rewrite aget_upd by lia. destruct (Nat.eqb_spec 0 index); [apply A0; auto|apply A1; lia]. }
      { intros g Hg. rewrite !aget_upd by lia. destruct (Nat.eqb_spec g index); [lia|]. destruct (Nat.eqb_spec (S g) index); [|apply A2; lia].
        replace g with (index - 1) by lia. apply A3. lia. }
      { intros _. replace (S index - 1) with index by lia. rewrite aget_upd_eq by lia. lia. }
      { intros g v Hg. rewrite !aget_upd by lia. destruct (Nat.eqb_spec g index); [lia|]. destruct (Nat.eqb_spec (S g) index) as [Eg|].
        - intros Hv. destruct (Nat.eqb_spec v i); [lia|]. rewrite A5; try lia. split; [|lia]. replace (index - 1) with g by lia. lia.
        - intros Hv. specialize (HM g ltac:(lia)). destruct (Nat.eqb_spec v i); [lia|]. apply A4; lia. }
      { intros v _. replace (S index - 1) with index by lia. rewrite !aget_upd by lia. rewrite Nat.eqb_refl. intros Hv.
        destruct (Nat.eqb_spec v i); auto. lia. }
      { intros v Hv. rewrite !aget_upd by lia. destruct (Nat.eqb_spec v i); [lia|]. destruct (Nat.eqb_spec (S v) i) as [E|]; [|apply A6; lia].
        specialize (HL ltac:(lia)). replace (i - 1) with v in HL by lia. specialize (HLE v ltac:(lia)). destruct (lk v); [discriminate|]. split; [discriminate|lia]. }
    + assert (0 < i). { destruct i; [|lia]. rewrite Nat.mod_0_l in EM by lia. discriminate. }
      assert (0 < index) by (destruct index; [specialize (A0 eq_refl)|]; lia).
      wp1. wp1. wp1; [lia|]. wp1. wp1; [lia|]. wp1. rewrite !upd_length. splits; auto; try lia.
      { intros v Hv. rewrite aget_upd by lia. destruct (Nat.eqb_spec v i); auto. apply I6. lia. }
      unfold part_runs. splits; try lia; auto.
      { intros g v Hg Hv. specialize (HM g ltac:(lia)). rewrite aget_upd by lia. destruct (Nat.eqb_spec v i); [lia|]. apply A4; lia. }
      { intros v _ Hv. rewrite aget_upd by lia. destruct (Nat.eqb_spec v i); auto. apply A5; lia. }
      { intros v Hv. rewrite !aget_upd by lia. destruct (Nat.eqb_spec v i); [lia|]. destruct (Nat.eqb_spec (S v) i) as [E|]; [|apply A6; lia].
        specialize (HL ltac:(lia)). replace (i - 1) with v in HL by lia. specialize (A3 ltac:(lia)). rewrite A5 by lia.
        destruct (lk v); [|discriminate]. tauto. }
  - intros [[[[gp gs] inv] pos] index] (I1 & I2 & I3 & I4 & I5 & I6 & (A0 & A1 & A2 & A3 & A4 & A5 & A6)).
    wp1. wp1; [lia|]. wp1. rewrite !upd_length. splits; auto. unfold runs. splits.
    + rewrite aget_upd by lia. destruct (Nat.eqb_spec 0 index); [apply A0; auto|apply A1; lia].
    + intros g Hg. rewrite !aget_upd by lia. destruct (Nat.eqb_spec g index); [lia|]. destruct (Nat.eqb_spec (S g) index); [|apply A2; lia].
      replace g with (index - 1) by lia. apply A3. lia.
    + now rewrite aget_upd_eq by lia.
    + auto.
    + intros g v Hg. rewrite !aget_upd by lia. destruct (Nat.eqb_spec g index); [lia|]. destruct (Nat.eqb_spec (S g) index); [|apply A4; lia].
      intros Hv. rewrite A5; try lia. split; [|lia]. replace (index - 1) with g by lia. lia.
    + intros v Hv. rewrite <- A6 by auto. unfold lk, same_block. rewrite negb_true_iff, Nat.eqb_neq. tauto.
Qed.
