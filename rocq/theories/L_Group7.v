(** Proofs about the tree groupings as a whole, and why the group DAG is acyclic. *)
From Coq Require Import List Arith Lia Bool Permutation ZifyBool ZifyNat.
From Verif Require Import Base Lib Lib2 Lib3 Spec SpecSolve SpecGroup M_Sched L_Sched M_Mat M_Group L_Group L_Group2 L_Group3 L_Group4 L_Group5 L_Group6.
Import ListNotations.

(** * Acyclic quotients *)

Lemma chain_trans E u v w a b : chain E u v a -> chain E v w b -> chain E u w (a + b).
Proof.
  intros H1 H2. induction H2 as [|v w x k H IH Hx].
  - now rewrite Nat.add_0_r.
  - rewrite Nat.add_succ_r. econstructor; eauto.
Qed.

(** [R g] is a node all members of group [g] lead to; edges out of other members stay in
    the groups leading to the same node, and lower the rank *)
Section Quotient.
Variables (E : nat -> nat -> Prop) (ng : nat) (gp gs : list nat) (R rk : nat -> nat).
Hypothesis HR : forall g u, g < ng -> in_level gp gs g u -> reaches E u (R g).
Hypothesis HX : forall g h u v, g < ng -> h < ng -> g <> h -> in_level gp gs g u -> in_level gp gs h v -> E u v -> R g <> u ->
  R h = R g /\ rk h < rk g.

Lemma quotient_chain g h k : chain (quotient E ng gp gs) g h (S k) ->
  g < ng /\ h < ng /\ ((R h = R g /\ rk h < rk g) \/ exists m, chain E (R g) (R h) (S m)).
Proof.
  revert h. induction k as [|k IH]; intros h Hc; inversion Hc as [|? x ? ? H1 H2]; subst.
  - assert (x = g) by (inversion H1; auto). subst x. destruct H2 as (Hg & Hh & Hne & u & v & Hu & Hv & He).
    splits; auto. destruct (Nat.eq_dec (R g) u) as [Eu|Eu].
    + right. destruct (HR h v Hh Hv) as (m & Hm). exists m. rewrite Eu. eapply chain_cons; eauto.
    + left. eapply HX; eauto.
  - destruct (IH x H1) as (Hg & Hx & IHc).
    destruct H2 as (_ & Hh & Hne & y & v & Hy & Hv & He). splits; auto.
    destruct (Nat.eq_dec (R x) y) as [Eu|Eu].
    + right. destruct (HR h v Hh Hv) as (m & Hm). rewrite Eu in IHc.
      pose proof (chain_cons E y v (R h) m He Hm) as Hym.
      destruct IHc as [(IH1 & _)|(m' & IH2)].
      * exists m. now rewrite <- IH1.
      * exists (m' + S m). pose proof (chain_trans _ _ _ _ _ _ IH2 Hym) as Ht. auto.
    + destruct (HX x h y v Hx Hh Hne Hy Hv He Eu) as (X1 & X2). rewrite X1.
      destruct IHc as [(IH1 & IH2)|IH2]; [left; split; auto; lia|right; auto].
Qed.

Lemma quotient_acyclic_of : acyclic E -> acyclic (quotient E ng gp gs).
Proof.
  intros HA g k Hc. destruct (quotient_chain g g k Hc) as (_ & _ & H).
  destruct H as [(_ & H)|(m & H)]; [lia|]. now apply HA in H.
Qed.
End Quotient.

Lemma reaches_step E u v : reaches E u v -> u <> v -> exists w, E u w.
Proof.
  intros (k & H). induction H as [|u v w k H IH Hw]; [congruence|]. intros Hne.
  destruct (Nat.eq_dec u v) as [->|]; eauto.
Qed.

(** * The tree groupings *)

Lemma raw_groups_grouping n ng gp gs : raw_groups n ng gp gs -> grouping n ng gp gs.
Proof.
  intros (H1 & H2 & H3 & H4 & H5). unfold grouping. splits; auto; [apply H5|].
  unfold group_partition, level_partition. splits; auto.
  - intros l Hl. specialize (H3 l Hl). lia.
  - intros i Hi. apply (is_perm_lt n gs); auto.
  - intros i j Hi Hj. apply (is_perm_inj n gs); auto.
Qed.

Section Cut.
Variables (n : nat) (Lp Li : list nat) (restr : nat) (whole : Prop) (ng : nat) (ptr set gp gs : list nat) (rho : nat -> nat).
Hypothesis FC : forest_cut n Lp Li restr ng ptr set whole.
Hypothesis RG : raw_groups n ng gp gs.
Hypothesis RN : renamed ng ptr set gp gs rho.
Notation E := (edge n Lp Li).

Lemma cut_member g u : g < ng -> in_level gp gs g u -> exists i, ptr.[rho g] <= i < ptr.[S (rho g)] /\ i < n /\ set.[i] = u.
Proof.
  intros Hg (k & Hk & <-). destruct RN as (N1 & N2 & N3). destruct (N3 g Hg) as (M1 & M2).
  pose proof FC as ((F1 & F2 & F3 & F4 & F5) & _). pose proof (N1 g Hg) as Hr. pose proof (F3 _ Hr).
  assert (Hle : ptr.[S (rho g)] <= ptr.[ng]).
  { apply (mono_le (aget ptr) ng); try lia. intros i Hi. specialize (F3 i Hi). lia. }
  specialize (M2 (k - gp.[g]) ltac:(lia)). replace (gp.[g] + (k - gp.[g])) with k in M2 by lia.
  exists (ptr.[rho g] + (k - gp.[g])). splits; auto; lia.
Qed.

Lemma cut_listed g i : g < ng -> ptr.[rho g] <= i < ptr.[S (rho g)] -> in_level gp gs g set.[i].
Proof.
  intros Hg Hi. destruct RN as (N1 & N2 & N3). destruct (N3 g Hg) as (M1 & M2).
  specialize (M2 (i - ptr.[rho g]) ltac:(lia)). replace (ptr.[rho g] + (i - ptr.[rho g])) with i in M2 by lia.
  exists (gp.[g] + (i - ptr.[rho g])). split; auto. lia.
Qed.

Lemma cut_seg_unique q q' i : q < ng -> q' < ng -> ptr.[q] <= i < ptr.[S q] -> ptr.[q'] <= i < ptr.[S q'] -> q = q'.
Proof.
  intros Hq Hq' H1 H2. pose proof FC as ((F1 & F2 & F3 & F4 & F5) & _).
  apply (bucket_unique (aget ptr) ng q q' i); auto. intros j Hj. specialize (F3 j Hj). lia.
Qed.

Lemma cut_quotient_acyclic : acyclic E -> acyclic (quotient E ng gp gs).
Proof.
  intros HA. pose proof FC as ((F1 & F2 & F3 & F4 & F5) & _ & rt & T1 & T2 & T3).
  pose proof RN as (N1 & N2 & N3).
  assert (HG : forall g i, g < ng -> ptr.[rho g] <= i < ptr.[S (rho g)] -> rt set.[ptr.[rho g]] = rt set.[i]).
  { intros g i Hg Hi. apply (T2 (rho g)); auto; lia. }
  apply (quotient_acyclic_of E ng gp gs (fun g => rt set.[ptr.[rho g]]) rho); auto.
  - intros g u Hg Hu. destruct (cut_member g u Hg Hu) as (i & Hi & Hn & <-). rewrite (HG g i) by auto. apply T1. now apply (is_perm_lt n set).
  - intros g h u v Hg Hh Hne Hu Hv He Hr. destruct (cut_member g u Hg Hu) as (i & Hi & Hn & <-).
    destruct (cut_member h v Hh Hv) as (i' & Hi' & Hn' & <-). rewrite (HG g i), (HG h i') in * by auto.
    destruct (T3 i _ Hn Hr He) as (_ & j & Hj & Ej & Er & _).
    assert (i' = j) by (apply (is_perm_inj n set); auto; lia). subst j. split; auto.
    destruct (Nat.lt_trichotomy (rho h) (rho g)) as [|[Eq|Hgt]]; auto.
    + elim Hne. symmetry. now apply N2.
    + assert (ptr.[S (rho g)] <= ptr.[rho h]); [|lia].
      apply (mono_le (aget ptr) ng); try lia; [|specialize (N1 h Hh); lia]. intros a Ha. specialize (F3 a Ha). lia.
Qed.

Lemma cut_tree_groups : whole -> tree_groups E ng gp gs.
Proof.
  intros Hw g Hg. pose proof FC as ((F1 & F2 & F3 & F4 & F5) & _ & rt & T1 & T2 & T3).
  pose proof RN as (N1 & N2 & N3). pose proof (N1 g Hg) as Hrg. pose proof (F3 _ Hrg) as Hlt.
  assert (Hle : ptr.[S (rho g)] <= ptr.[ng]).
  { apply (mono_le (aget ptr) ng); try lia. intros i Hi. specialize (F3 i Hi). lia. }
  set (i0 := ptr.[rho g]) in *. exists set.[i0]. split; [apply cut_listed; auto; unfold i0; lia|].
  assert (Hr0 : rt set.[i0] = set.[i0]).
  { destruct (Nat.eq_dec (rt set.[i0]) set.[i0]) as [|Hne]; auto. exfalso.
    destruct (reaches_step E set.[i0] (rt set.[i0])) as (w & Hx); auto.
    - apply T1. apply (is_perm_lt n set); auto. lia.
    - destruct (T3 i0 w ltac:(lia) Hne Hx) as (_ & j & Hj & _ & _ & Hwh).
      destruct (Hwh Hw (rho g) ltac:(lia)); lia. }
  intros u Hu Hne. destruct (cut_member g u Hg Hu) as (i & Hi & Hn & <-).
  assert (Hri : rt set.[i] <> set.[i]).
  { rewrite (T2 (rho g) i i0) by (auto; unfold i0; lia). rewrite Hr0. auto. }
  destruct (reaches_step E set.[i] (rt set.[i])) as (w & Hx); auto.
  { apply T1. now apply (is_perm_lt n set). }
  destruct (T3 i w Hn Hri Hx) as (U & j & Hj & Ej & _ & Hwh).
  exists w. splits; auto. rewrite Ej. apply cut_listed; auto.
  specialize (Hwh Hw (rho g) ltac:(lia)). lia.
Qed.

Lemma cut_sizes : sizes_at_most restr ng gp.
Proof.
  intros g Hg. pose proof RN as (N1 & _ & N3). destruct (N3 g Hg) as (M1 & _). rewrite M1.
  pose proof FC as (_ & F & _). now apply F, N1.
Qed.
End Cut.

Lemma tree_groups_one_exit E ng gp gs : tree_groups E ng gp gs -> one_exit E ng gp gs.
Proof.
  intros HT g u v u' v' Hg Hu Hu' Hv Hv' He He'. destruct (HT g Hg) as (r & Hr & HU).
  assert (G : forall a b, in_level gp gs g a -> ~ in_level gp gs g b -> E a b -> a = r).
  { intros a b Ha Hb Hab. destruct (Nat.eq_dec a r) as [|Hne]; auto.
    destruct (HU a Ha Hne) as (p & _ & Hp & Hq). elim Hb. now rewrite (Hq b Hab). }
  rewrite (G u v), (G u' v'); auto.
Qed.

(** what either tree grouping returns *)
Definition tree_result n Lp Li restr (whole : Prop) ng gp gs : Prop :=
  grouping n ng gp gs /\ by_smallest ng gp gs /\ sizes_at_most restr ng gp /\
  acyclic (quotient (edge n Lp Li) ng gp gs) /\ (whole -> tree_groups (edge n Lp Li) ng gp gs).

Lemma tree_result_of n Lp Li restr whole ng ptr set gp gs rho : lower_tri n Lp Li ->
  forest_cut n Lp Li restr ng ptr set whole -> raw_groups n ng gp gs -> renamed ng ptr set gp gs rho -> min_ordered ng gp gs ->
  tree_result n Lp Li restr whole ng gp gs.
Proof.
  intros HT FC RG RN MO. unfold tree_result. splits.
  - now apply raw_groups_grouping.
  - exact MO.
  - eapply cut_sizes; eauto.
  - eapply cut_quotient_acyclic; eauto. now apply lower_tri_acyclic.
  - intros Hw. eapply cut_tree_groups; eauto.
Qed.

Section Whole.
Variables (n : nat) (Lp Li : list nat) (restr : nat).
Hypothesis W : wf_csc n Lp Li.
Hypothesis HLp : length Lp = S n.
Hypothesis HLi : length Li = Lp.[n].
Hypothesis HD : one_diag n Lp Li.
Hypothesis HT : lower_tri n Lp Li.
Hypothesis Hn : 0 < n.
Hypothesis HR : 0 < restr.

Lemma treeBasedGrouping_wp (Q : _ -> Prop) :
  (forall ng gp gs, tree_result n Lp Li restr (n <= restr) ng gp gs -> Q (ng, gp, gs)) ->
  wp (treeBasedGrouping restr n Lp Li) Q.
Proof.
  intros HQ. unfold treeBasedGrouping. wp1. apply inverse_DAG_wp; auto. intros ip is PR.
  wp1. apply (sink_ids_wp n Lp Li); auto. intros roots R1 R2.
  wp1. apply (tree_walks_wp n Lp Li); auto. intros s FC Hng HL.
  assert (G : forall ng, ng = length (t_ptr s) - 1 ->
    wp ('(gp, gs) <- renumber_groups n ng (t_ptr s) (t_set s);; Ok (ng, gp, gs)) Q).
  { intros ng ->. wp1. apply renumber_groups_wp; [apply FC|]. intros gp gs rho A1 A2 A3. wp1. apply HQ. eapply tree_result_of; eauto. }
  wp1. destruct (Nat.eqb_spec (length (t_ptr s)) (t_ng s + 1)) as [E1|E1].
  - cbn [wp]. apply G. lia.
  - destruct (Nat.eqb_spec (length (t_ptr s)) (t_ng s)) as [E2|E2]; [|lia]. cbn [wp]. apply G. lia.
Qed.

Lemma treeBasedGroupingBFS_wp (Q : _ -> Prop) :
  (forall ng gp gs, tree_result n Lp Li restr True ng gp gs -> Q (ng, gp, gs)) ->
  wp (treeBasedGroupingBFS restr n Lp Li) Q.
Proof.
  intros HQ. unfold treeBasedGroupingBFS. wp1. apply inverse_DAG_wp; auto. intros ip is PR.
  wp1. apply (sink_ids_wp n Lp Li); auto. intros roots R1 R2.
  wp1. apply (bfs_walks_wp n Lp Li); auto. intros s FC.
  wp1. apply renumber_groups_wp; [apply FC|]. intros gp gs rho A1 A2 A3. wp1. apply HQ. eapply tree_result_of; eauto.
Qed.
End Whole.
