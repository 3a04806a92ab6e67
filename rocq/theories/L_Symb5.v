(** Elimination trees and the pattern of the factor. *)
From Coq Require Import ZifyBool ZifyNat.
From Verif Require Import Base Lib Lib2 Lib3 Spec SpecETree SpecSym M_Tree P_Tree L_ETree P_Post P_TreeH P_ETree.

(** the entries of the strict lower triangle *)
Definition ordered (n : nat) (A : nat -> nat -> Prop) : Prop := forall i k, A i k -> i < k /\ k < n.
Definition larger (n : nat) (par : list Z) : Prop := forall u, u < n -> par.[u] = (-1)%Z \/ (Z.of_nat u < par.[u] < Z.of_nat n)%Z.

Section Tree.
Variables (n : nat) (A : nat -> nat -> Prop) (par : list Z).
Hypothesis OA : ordered n A.
Hypothesis LA : larger n par.

Lemma larger_up u : u < n -> par.[u] = (-1)%Z \/ exists p, par.[u] = Z.of_nat p /\ u < p /\ p < n.
Proof. intros Hu. destruct (LA u Hu) as [|]; auto. right. exists (Z.to_nat par.[u]). lia. Qed.
Lemma larger_desc u v : u < n -> desc n par u v -> u <= v /\ v < n.
Proof. intros Hu H. induction H as [u|u p v H1 H2 H3 IH]; [lia|]. specialize (IH H2). destruct (larger_up u Hu) as [E|(q & E & Hq)]; lia. Qed.
Lemma desc_last u v : desc n par u v -> u = v \/ exists c, desc n par u c /\ par.[c] = Z.of_nat v /\ v < n /\ (u < n -> c < n).
Proof.
  induction 1 as [u|u p v H1 H2 H3 IH]; auto. destruct IH as [->|(c & C1 & C2 & C3 & C4)]; right.
  - exists u. splits; auto. constructor.
  - exists c. splits; auto. econstructor; eauto.
Qed.
Lemma desc_comparable u a b : desc n par u a -> desc n par u b -> desc n par a b \/ desc n par b a.
Proof.
  intros H. revert b. induction H as [u|u p v H1 H2 H3 IH]; intros b Hb; auto. inversion Hb as [|? q ? E Hq Hd]; subst.
  - right. econstructor; eauto.
  - assert (q = p) by lia. subst. apply IH; auto.
Qed.

Definition anc : Prop := forall i k, A i k -> desc n par i k.
Definition covered : Prop := forall c u, c < n -> u < n -> par.[c] = Z.of_nat u -> exists x, desc n par x c /\ A x u.

Lemma fill_tree : anc -> forall x y, fill A x y -> x < y -> y < n /\ desc n par x y /\ exists j, desc n par j x /\ A j y.
Proof.
  intros HA. assert (G : forall x y, fill A x y -> let lo := Nat.min x y in let hi := Nat.max x y in hi < n /\ desc n par lo hi /\ exists j, desc n par j lo /\ A j hi).
  { intros x y F. induction F as [x y H Hne|j x y F1 IH1 F2 IH2 H1 H2 Hne]; cbv zeta in *.
    - destruct H as [H|H]; destruct (OA _ _ H); [rewrite Nat.min_l, Nat.max_r by lia|rewrite Nat.min_r, Nat.max_l by lia]; splits; auto; eexists; split; eauto; constructor.
    - rewrite Nat.min_l, Nat.max_r in IH1, IH2 by lia. destruct IH1 as (B1 & D1 & a & A1 & A2). destruct IH2 as (B2 & D2 & b & A3 & A4).
      destruct (le_lt_dec x y) as [L|L]; [rewrite Nat.min_l, Nat.max_r by lia|rewrite Nat.min_r, Nat.max_l by lia]; split; auto; split.
      + destruct (desc_comparable j x y D1 D2) as [K|K]; auto. apply larger_desc in K; lia.
      + exists b. split; auto. eapply desc_trans; eauto.
      + destruct (desc_comparable j x y D1 D2) as [K|K]; auto. apply larger_desc in K; lia.
      + exists a. split; auto. eapply desc_trans; eauto. }
  intros x y F L. specialize (G x y F). cbv zeta in G. rewrite Nat.min_l, Nat.max_r in G by lia. auto.
Qed.

Lemma tree_fill : covered -> forall x y, x < y -> y < n -> desc n par x y -> (exists j, desc n par j x /\ A j y) -> fill A x y.
Proof.
  intros HC x. induction x as [x IH] using lt_wf_ind. intros y Hxy Hy D (j & Dj & Hj).
  destruct (desc_last j x Dj) as [->|(c & C1 & C2 & C3 & C4)]; [apply fill_entry; [auto|lia]|].
  destruct (OA _ _ Hj) as [J1 J2]. specialize (C4 ltac:(lia)). assert (c < x) by (destruct (larger_up c C4) as [|(p & ? & ?)]; lia).
  destruct (HC c x C4 C3 C2) as (m & M1 & M2). assert (Dcx : desc n par c x) by (econstructor; eauto; constructor).
  apply fill_elim with c; try lia.
  - apply IH; eauto.
  - apply IH; auto; [lia|eapply desc_trans; eauto|eauto].
Qed.

Lemma tree_etree : anc -> covered -> forall v, v < n -> etree_parent A n v par.[v].
Proof.
  intros HA HC v Hv. destruct (larger_up v Hv) as [E|(p & E & P1 & P2)]; [left|right].
  - split; auto. intros k H1 H2 F. destruct (fill_tree HA v k F H1) as (_ & D & _). inversion D as [|? q ? E1]; subst; lia.
  - exists p. splits; auto.
    + apply tree_fill; auto. { econstructor; eauto; constructor. }
    + intros j H1 F. destruct (fill_tree HA v j F H1) as (_ & D & _). inversion D as [|? q ? E1 Hq D1]; subst; [lia|]. assert (q = p) by lia. subst q. apply larger_desc in D1; lia.
Qed.

Lemma etree_tree : (forall v, v < n -> etree_parent A n v par.[v]) -> anc /\ covered.
Proof.
  intros HE. assert (HA : anc) by (intros i k H; destruct (OA _ _ H); apply (fill_desc A); auto; apply fill_entry; [auto|lia]). split; auto.
  intros c u Hc Hu E. destruct (HE c Hc) as [[E1 _]|(k & E1 & K1 & K2 & K3 & _)]; [lia|]. assert (k = u) by lia. subst k.
  destruct (fill_tree HA c u K3 K1) as (_ & _ & G). exact G.
Qed.
End Tree.

(** the relabelled tree is the elimination tree of the relabelled matrix *)
Section Relabel.
Variables (n : nat) (A B : nat -> nat -> Prop) (par q : list Z) (post ipost : nat -> nat).
Hypothesis OA : ordered n A.
Hypothesis OB : ordered n B.
Hypothesis LA : larger n par.
Hypothesis LB : larger n q.
Hypothesis PP : perm_pair n post ipost.
Hypothesis HAB : forall i k, i < n -> k < n -> (B i k \/ B k i <-> A (post i) (post k) \/ A (post k) (post i)).
Hypothesis HQ : forall i j, i < n -> j < n -> (q.[i] = Z.of_nat j <-> par.[post i] = Z.of_nat (post j)).
Hypothesis HE : forall v, v < n -> etree_parent A n v par.[v].

Lemma relabel_desc i j : i < n -> j < n -> (desc n q i j <-> desc n par (post i) (post j)).
Proof.
  intros Hi Hj. split.
  - intros D. induction D as [u|u p v H1 H2 H3 IH]; [constructor|]. apply (HQ u p Hi H2) in H1. econstructor; eauto. now apply PP.
  - intros D. remember (post i) as a. remember (post j) as b. revert i Hi Heqa. induction D as [u|u p v H1 H2 H3 IH]; intros i Hi ->.
    + assert (i = j) as -> by (destruct PP as [P1 _]; destruct (P1 i Hi) as [_ <-]; destruct (P1 j Hj) as [_ <-]; congruence). constructor.
    + destruct PP as [P1 P2]. destruct (P2 p H2) as [P3 P4]. rewrite <- P4 in H1. apply HQ in H1; auto. econstructor; eauto.
Qed.

Lemma relabel : anc n B q /\ covered n B q.
Proof.
  destruct (etree_tree n A par OA LA HE) as [HA HC]. destruct PP as [P1 P2]. split.
  - intros i k H. destruct (OB _ _ H) as [H1 H2]. apply relabel_desc; try lia. destruct (proj1 (HAB i k ltac:(lia) H2) (or_introl H)) as [G|G]; [now apply HA|].
    exfalso. apply HA in G. apply (relabel_desc k i) in G; try lia. apply larger_desc in G; auto. lia.
  - intros c u Hc Hu E. apply (HQ c u Hc Hu) in E. destruct (HC (post c) (post u)) as (x & X1 & X2); auto; try apply P1; auto.
    destruct (OA _ _ X2) as [X3 X4]. destruct (P2 x ltac:(lia)) as [P3 P4]. exists (ipost x). rewrite <- P4 in X1, X2. apply relabel_desc in X1; auto. split; auto.
    destruct (proj2 (HAB (ipost x) u P3 Hu) (or_introl X2)) as [G|G]; auto. exfalso. destruct (OB _ _ G). apply larger_desc in X1; auto.
    apply (HQ c u Hc Hu) in E. destruct (LB c Hc); lia.
Qed.

Lemma relabel_etree v : v < n -> etree_parent B n v q.[v].
Proof. destruct relabel. now apply tree_etree. Qed.

Lemma relabel_fill x y : x < n -> y < n -> (x < y /\ fill B x y <-> post x < post y /\ fill A (post x) (post y)).
Proof.
  intros Hx Hy. destruct (etree_tree n A par OA LA HE) as [HA HC]. destruct relabel as [RA RC]. destruct PP as [P1 P2].
  assert (INJ : post x = post y -> x = y) by (intros E; destruct (P1 x Hx) as [_ <-]; destruct (P1 y Hy) as [_ <-]; congruence).
  split; intros [L F].
  - destruct (fill_tree n B q OB LB RA x y F L) as (_ & D & j & D1 & D2). destruct (OB _ _ D2).
    apply relabel_desc in D, D1; auto; try lia. assert (post x <= post y) by (destruct (larger_desc n par LA (post x) (post y)); auto; now apply P1).
    split; [lia|]. apply (tree_fill n A par OA LA HC); auto; [lia|now apply P1|]. exists (post j). split; auto.
    destruct (proj1 (HAB j y ltac:(lia) Hy) (or_introl D2)) as [G|G]; auto. exfalso. destruct (OA _ _ G). destruct (P1 j ltac:(lia)) as [PJ _]. pose proof (larger_desc n par LA (post j) (post x) PJ D1). lia.
  - destruct (fill_tree n A par OA LA HA _ _ F L) as (_ & D & j & D1 & D2). destruct (OA _ _ D2). destruct (P2 j ltac:(lia)) as [P3 P4].
    assert (D0 := D). apply relabel_desc in D0; auto. assert (x <= y) by (apply larger_desc in D0; auto; lia). assert (x <> y) by (intros ->; lia). split; [lia|].
    rewrite <- P4 in D1, D2. apply relabel_desc in D1; auto. apply (tree_fill n B q OB LB RC); auto; [lia|]. exists (ipost j). split; auto.
    destruct (proj2 (HAB (ipost j) y P3 Hy) (or_introl D2)) as [G|G]; auto. exfalso. destruct (OB _ _ G). apply larger_desc in D1; auto. lia.
Qed.
End Relabel.
