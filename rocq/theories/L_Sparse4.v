(** Reachability and the sparsified graph. *)
From Coq Require Import ZifyBool ZifyNat.
From Verif Require Import Base Lib Lib2 Lib3 Spec M_Sparse L_Sparse L_Sparse2 L_Sparse3 L_Group7.

Lemma reaches_refl E u : reaches E u u.
Proof. exists 0. constructor. Qed.

Lemma reaches_edge (E : nat -> nat -> Prop) u v : E u v -> reaches E u v.
Proof. intros H. exists 1. econstructor; [constructor|auto]. Qed.

Lemma reaches_trans E u v w : reaches E u v -> reaches E v w -> reaches E u w.
Proof. intros (k & H1) (k' & H2). exists (k + k'). eapply chain_trans; eauto. Qed.

Lemma reaches_mono (E E' : nat -> nat -> Prop) : (forall u v, E u v -> reaches E' u v) -> forall u v, reaches E u v -> reaches E' u v.
Proof.
  intros H u v (k & Hc). induction Hc as [|u v w k Hc IH He]; [apply reaches_refl|]. eapply reaches_trans; eauto.
Qed.

Lemma sorted_lt_filter P l : sorted_lt l -> sorted_lt (filter P l).
Proof.
  induction l as [|x l IH]; intros H; simpl; auto. apply sorted_lt_cons in H. destruct H as (H1 & H2).
  destruct (P x); auto. apply sorted_lt_cons. split; auto. intros y Hy. apply filter_In in Hy. now apply H1.
Qed.

Lemma sorted_lt_map f l : sorted_lt l -> (forall a b, In a l -> In b l -> a < b -> f a < f b) -> sorted_lt (map f l).
Proof.
  induction l as [|x l IH]; intros H Hf; simpl; [apply sorted_lt_nil|]. apply sorted_lt_cons in H. destruct H as (H1 & H2).
  apply sorted_lt_cons. split.
  - intros y Hy. apply in_map_iff in Hy. destruct Hy as (z & <- & Hz). apply Hf; simpl; auto.
  - apply IH; auto. intros a b Ha Hb. apply Hf; simpl; auto.
Qed.

Lemma sorted_lt_seq a k : sorted_lt (seq a k).
Proof. intros i j Hij Hj. rewrite seq_length in Hj. rewrite !aget_seq by lia. lia. Qed.

(** * The graph without cliques *)

Section Thin.
Variables (n : nat) (Lp Li c : list nat).
Hypothesis W : wf_csc n Lp Li.
Hypothesis HD : diag_first n Lp Li.
Hypothesis HT : lower_tri n Lp Li.
Hypothesis HI : forall j, j < n -> inner c j = true -> tail_col n Lp Li j.
Variables (p s : list nat).
Hypothesis C : columns n (thin Lp Li c) p s.
Notation E := (edge n Lp Li).

Lemma tail_first j : tail_col n Lp Li j -> E j (S j) /\ Li.[Lp.[S j]] = S j.
Proof.
  intros (T1 & T2 & T3). destruct (HD (S j) T1) as (D1 & D2 & D3). split; auto.
  split; [lia|]. split; [|lia]. exists (Lp.[j] + 1). split; [lia|]. rewrite T3 by lia. now rewrite Nat.add_0_r.
Qed.

Lemma thin_edge u v : edge n p s u v -> E u v.
Proof.
  intros H. apply (columns_edge n _ p s C) in H. destruct H as (Hu & Hv & Hne). unfold thin in Hv.
  destruct (inner c u) eqn:Ei.
  - destruct Hv as [->|[<-|[]]]; [lia|]. apply tail_first. auto.
  - apply (col_of_In n) in Hv; auto. split; auto.
Qed.

Lemma thin_bound u v : u < n -> In v (thin Lp Li c u) -> v < n.
Proof.
  intros Hu Hv. unfold thin in Hv. destruct (inner c u) eqn:Ei.
  - destruct (HI u Hu Ei) as (T & _). destruct Hv as [<-|[<-|[]]]; lia.
  - apply (col_of_In n) in Hv; auto. destruct Hv as (k & Hk & <-). destruct (Lp_le n Lp Li W u Hu). destruct W as (_ & _ & _ & _ & W5). apply W5. lia.
Qed.

Lemma thin_diag u : u < n -> exists t, thin Lp Li c u = u :: t /\ ~ In u t.
Proof.
  intros Hu. unfold thin. destruct (inner c u).
  - exists [S u]. split; auto. intros [|[]]. lia.
  - now apply (col_of_diag n).
Qed.

Lemma thin_sorted u : sorted_cols n Lp Li -> u < n -> sorted_lt (thin Lp Li c u).
Proof.
  intros HS Hu. unfold thin. destruct (inner c u).
  - apply sorted_lt_cons. split; [intros y [<-|[]]; lia|]. apply sorted_lt_cons. split; [intros y []|apply sorted_lt_nil].
  - now apply (col_of_sorted n).
Qed.

Lemma thin_reach : forall u v, E u v -> reaches (edge n p s) u v.
Proof.
  assert (G : forall m u v, n - u <= m -> E u v -> reaches (edge n p s) u v).
  { induction m as [|m IH]; intros u v Hm He; [destruct He; lia|]. pose proof He as (Hu & (k & Hk & Ek) & Hne).
    destruct (inner c u) eqn:Ei.
    - pose proof (HI u Hu Ei) as TC. destruct (tail_first u TC) as (TE & TF). pose proof TC as (T1 & T2 & T3).
      assert (X : edge n p s u (S u)).
      { apply (columns_edge n _ p s C). unfold thin. rewrite Ei. simpl. splits; auto. }
      destruct (Nat.eq_dec v (S u)) as [->|Hv]; [now apply reaches_edge|].
      eapply reaches_trans; [apply reaches_edge; exact X|]. apply IH; [lia|].
      destruct (HD u Hu) as (D1 & D2 & D3).
      assert (k <> Lp.[u]) by (intros ->; congruence).
      split; auto. split; [|auto]. exists (Lp.[S u] + (k - Lp.[u] - 1)).
      pose proof (Lp_le n Lp Li W (S u) T1). split; [lia|].
      rewrite <- T3 by lia. rewrite <- Ek. f_equal. lia.
    - apply reaches_edge. apply (columns_edge n _ p s C). unfold thin. rewrite Ei. splits; auto. apply (col_of_In n); auto. exists k. auto. }
  intros u v. apply (G n). lia.
Qed.

Lemma thin_graph : wf_csc n p s /\ diag_first n p s /\ lower_tri n p s /\ length s = p.[n] /\
  (sorted_cols n Lp Li -> sorted_cols n p s).
Proof.
  splits.
  - apply (columns_wf n _ p s C). apply thin_bound.
  - apply (columns_diag n _ p s C). apply thin_diag.
  - intros u v H. apply HT. now apply thin_edge.
  - symmetry. apply (columns_n n _ p s C).
  - intros HS. apply (columns_sorted n _ p s C). intros u. now apply thin_sorted.
Qed.
End Thin.

(** * Removing the transitive edges *)

Section Kept.
Variables (n : nat) (p s : list nat) (del : list bool).
Hypothesis W : wf_csc n p s.
Hypothesis HD : diag_first n p s.
Hypothesis HT : lower_tri n p s.
Hypothesis DS : del_sound n p s del.
Variables (p' s' : list nat).
Hypothesis C : columns n (kept p s del) p' s'.
Notation E := (edge n p s).

Lemma kept_In u x : In x (kept p s del u) <-> exists q, p.[u] <= q < p.[S u] /\ del.[q] = false /\ s.[q] = x.
Proof.
  unfold kept. rewrite in_map_iff. split.
  - intros (q & Eq & Hq). apply filter_In in Hq. destruct Hq as (H1 & H2). apply in_seq in H1. exists q. splits; try lia; auto.
  - intros (q & Hq & H1 & H2). exists q. split; auto. apply filter_In. split; [apply in_seq; lia|]. now rewrite H1.
Qed.

Lemma detour_col u q : u < n -> p.[u] <= q < p.[S u] -> del.[q] = true -> detour n p s u q.
Proof.
  intros Hu Hq Hd. destruct (DS q Hd) as (i & D). pose proof D as (Hi & Hr & _).
  assert (i = u); [|subst; auto]. destruct W as (_ & _ & W3 & _). apply (bucket_unique (aget p) n i u q); auto. lia.
Qed.

Lemma detour_edges u q : detour n p s u q -> exists k, E u k /\ E k s.[q].
Proof.
  intros (Hu & Hq & kq & q2 & Hkq & Hq2 & Eq). exists s.[kq].
  destruct (Lp_le n p s W u Hu) as (B1 & B2 & B3). destruct W as (_ & _ & _ & _ & W5). assert (Hk : s.[kq] < n) by (apply W5; lia).
  destruct (HD u Hu) as (D1 & D2 & D3). destruct (HD _ Hk) as (F1 & F2 & F3).
  split; [split; [auto|split]|split; [auto|split]].
  - exists kq. split; auto. lia.
  - intros Ex. apply (D3 kq); auto.
  - exists q2. split; auto. lia.
  - rewrite Eq. intros Ex. apply (F3 q2); auto.
Qed.

Lemma kept_edge u v : edge n p' s' u v -> E u v.
Proof.
  intros H. apply (columns_edge n _ p' s' C) in H. destruct H as (Hu & Hv & Hne). apply kept_In in Hv. destruct Hv as (q & Hq & _ & Eq).
  split; auto. split; auto. exists q. auto.
Qed.

Lemma kept_reach : forall u v, E u v -> reaches (edge n p' s') u v.
Proof.
  assert (G : forall m u v, v - u <= m -> E u v -> reaches (edge n p' s') u v).
  { induction m as [|m IH]; intros u v Hm He; [apply HT in He; lia|]. pose proof He as (Hu & (q & Hq & Eq) & Hne).
    destruct (del.[q]) eqn:Ed.
    - destruct (detour_edges u q (detour_col u q Hu Hq Ed)) as (k & E1 & E2). rewrite Eq in E2.
      pose proof (HT _ _ E1). pose proof (HT _ _ E2).
      eapply reaches_trans; [apply (IH u k); auto; lia|apply (IH k v); auto; lia].
    - apply reaches_edge. apply (columns_edge n _ p' s' C). splits; auto. apply kept_In. exists q. auto. }
  intros u v. apply (G (v - u)). lia.
Qed.

Lemma kept_diag u : u < n -> exists t, kept p s del u = u :: t /\ ~ In u t.
Proof.
  intros Hu. destruct (HD u Hu) as (D1 & D2 & D3). unfold kept.
  replace (p.[S u] - p.[u]) with (S (p.[S u] - S p.[u])) by lia. simpl.
  destruct (del.[p.[u]]) eqn:Ed.
  - destruct (detour_col u p.[u] Hu ltac:(lia) Ed) as (_ & Hq & _). lia.
  - simpl. rewrite D2. eexists. split; [reflexivity|]. intros H. apply in_map_iff in H. destruct H as (q & Eq & Hq).
    apply filter_In in Hq. destruct Hq as (Hq & _). apply in_seq in Hq. apply (D3 q); auto. lia.
Qed.

Lemma kept_sorted u : sorted_cols n p s -> u < n -> sorted_lt (kept p s del u).
Proof.
  intros HS Hu. unfold kept. apply sorted_lt_map; [apply sorted_lt_filter, sorted_lt_seq|]. intros a b Ha Hb Hab.
  apply filter_In in Ha. apply filter_In in Hb. destruct Ha as (Ha & _). destruct Hb as (Hb & _). apply in_seq in Ha. apply in_seq in Hb.
  apply (HS u); auto; lia.
Qed.

Lemma kept_reduced : del_complete n p s n del -> forall u k v, E u k -> E k v -> ~ edge n p' s' u v.
Proof.
  intros DC u k v (Hu & (kq & Hkq & <-) & Hn1) (Hk & (q2 & Hq2 & E2) & Hn2) H.
  apply (columns_edge n _ p' s' C) in H. destruct H as (_ & Hv & Hne). apply kept_In in Hv. destruct Hv as (q & Hq & Hd & Eq).
  destruct (HD u Hu) as (D1 & D2 & D3). destruct (HD _ Hk) as (F1 & F2 & F3).
  assert (del.[q] = true); [|congruence]. apply (DC u); auto.
  assert (q <> p.[u]) by (intros ->; congruence). assert (kq <> p.[u]) by (intros ->; congruence). assert (q2 <> p.[s.[kq]]) by (intros ->; congruence).
  unfold detour. splits; auto; try lia. exists kq, q2. splits; auto; try lia; congruence.
Qed.

Lemma kept_graph : wf_csc n p' s' /\ length p' = S n /\ length s' = p'.[n] /\ diag_first n p' s' /\ (sorted_cols n p s -> sorted_cols n p' s').
Proof.
  splits.
  - apply (columns_wf n _ p' s' C). intros u x Hu Hx. apply kept_In in Hx. destruct Hx as (q & Hq & _ & <-).
    destruct (Lp_le n p s W u Hu). destruct W as (_ & _ & _ & _ & W5). apply W5. lia.
  - apply C.
  - symmetry. apply (columns_n n _ p' s' C).
  - apply (columns_diag n _ p' s' C). apply kept_diag.
  - intros HS. apply (columns_sorted n _ p' s' C). intros u. now apply kept_sorted.
Qed.
End Kept.

(** * partialSparsification *)

(** [p],[s] is the graph [Lp],[Li] without some edges that a longer path replaces *)
Definition thinned (n : nat) (Lp Li p s : list nat) : Prop :=
  wf_csc n p s /\ length p = S n /\ length s = p.[n] /\ diag_first n p s /\
  (forall u v, edge n p s u v -> edge n Lp Li u v) /\
  (forall u v, reaches (edge n p s) u v <-> reaches (edge n Lp Li) u v) /\
  (sorted_cols n Lp Li -> sorted_cols n p s /\ forall u k v, edge n p s u k -> edge n p s k v -> ~ edge n p s u v).

Section Sparse.
Variables (n : nat) (Lp Li : list nat).
Hypothesis W : wf_csc n Lp Li.
Hypothesis HD : diag_first n Lp Li.
Hypothesis HT : lower_tri n Lp Li.

Lemma sparse_clique_wp bins sched nnz ptr0 set0 (Q : _ -> Prop) : 0 < n -> 0 < bins ->
  (forall ptr set, thinned n Lp Li (upd ptr 0 0) set -> ptr.[0] = ptr0.[0] -> Q (ptr, set0 ++ set)) ->
  wp (partialSparsification true bins sched n nnz Lp Li ptr0 set0 true) Q.
Proof.
  intros Hn HB HQ. unfold partialSparsification. wp1. apply clique_labels_wp; auto. intros CC labels AC HL HN.
  assert (H0 : labels.[0] = 0) by (apply (named_zero n Lp Li bins HB CC); auto).
  pose proof (clique_cuts_ok labels ltac:(lia) H0) as RC. set (c := clique_cuts labels) in *.
  pose proof (inner_tail n Lp Li labels c HL RC bins CC HB AC HN) as HI.
  wp1. apply (no_clique_wp n Lp Li labels); auto. intros p s C.
  destruct (thin_graph n Lp Li c W HD HT HI p s C) as (T1 & T2 & T3 & T4 & T5).
  wp1. apply transitive_edges_wp; auto. intros del D1 D2 D3. apply kept_edges_wp; auto; [lia|].
  intros ptr set CK E0. apply HQ; auto.
  destruct (kept_graph n p s del T1 T2 D2 (upd ptr 0 0) set CK) as (K1 & K2 & K3 & K4 & K5).
  pose proof (kept_edge n p s del (upd ptr 0 0) set CK) as KE. pose proof (thin_edge n Lp Li c W HD HI p s C) as TE.
  unfold thinned. splits; auto.
  - intros u v. split.
    + apply reaches_mono. intros a b He. apply reaches_edge. auto.
    + apply reaches_mono. intros a b He. eapply reaches_mono; [|apply (thin_reach n Lp Li c W HD HI p s C); exact He].
      intros x y Hxy. apply (kept_reach n p s del T1 T2 T3 D2 (upd ptr 0 0) set CK). auto.
  - intros HS. split; auto. intros u k v H1 H2. apply (kept_reduced n p s del T2 (upd ptr 0 0) set CK (D3 (T5 HS)) u k v); auto.
Qed.

Lemma sparse_slow_wp omp bins sched nnz ptr0 set0 (Q : _ -> Prop) : sorted_cols n Lp Li -> Lp.[n] <= nnz ->
  (forall ptr set, thinned n Lp Li (upd ptr 0 0) set ->
     (forall u k v, edge n Lp Li u k -> edge n Lp Li k v -> ~ edge n (upd ptr 0 0) set u v) -> ptr.[0] = ptr0.[0] -> Q (ptr, set0 ++ set)) ->
  wp (partialSparsification omp bins sched n nnz Lp Li ptr0 set0 false) Q.
Proof.
  intros HS HN HQ. unfold partialSparsification. wp1. apply transitive_edges_slow_wp; auto; [intros i Hi; now apply HD|].
  intros del D1 D2 D3. apply kept_edges_wp; auto; [lia|]. intros ptr set CK E0.
  destruct (kept_graph n Lp Li del W HD D2 (upd ptr 0 0) set CK) as (K1 & K2 & K3 & K4 & K5).
  pose proof (kept_edge n Lp Li del (upd ptr 0 0) set CK) as KE.
  apply HQ; auto; [|apply (kept_reduced n Lp Li del HD (upd ptr 0 0) set CK D3)].
  unfold thinned. splits; auto.
  - intros u v. split.
    + apply reaches_mono. intros a b He. apply reaches_edge. auto.
    + apply reaches_mono. intros x y Hxy. apply (kept_reach n Lp Li del W HD HT D2 (upd ptr 0 0) set CK). auto.
  - intros _. split; auto. intros u k v H1 H2. apply (kept_reduced n Lp Li del HD (upd ptr 0 0) set CK D3 u k v); auto.
Qed.
End Sparse.
