(** Check: boolean tests for the specifications, used only to exhibit concrete
    inputs meeting the hypotheses of the theorems. *)
From Verif Require Import Base Lib Spec.

Definition allb (a b : nat) (p : nat -> bool) : bool := forallb p (seq a (b - a)).

Lemma allb_sound a b p : allb a b p = true -> forall i, a <= i < b -> p i = true.
Proof.
  unfold allb. rewrite forallb_forall. intros H i Hi. apply H. apply in_seq. lia.
Qed.

Definition wf_cscb n Lp Li : bool :=
  (n <? length Lp) && (Lp.[0] =? 0) && allb 0 n (fun i => Lp.[i] <=? Lp.[S i]) &&
  (Lp.[n] <=? length Li) && allb 0 Lp.[n] (fun k => Li.[k] <? n).

Lemma wf_cscb_ok n Lp Li : wf_cscb n Lp Li = true -> wf_csc n Lp Li.
Proof.
  unfold wf_cscb. rewrite !andb_true_iff. intros ((((H1 & H2) & H3) & H4) & H5).
  apply Nat.ltb_lt in H1. apply Nat.eqb_eq in H2. apply Nat.leb_le in H4.
  unfold wf_csc. splits; auto.
  - intros i Hi. apply Nat.leb_le. apply (allb_sound _ _ _ H3). lia.
  - intros k Hk. apply Nat.ltb_lt. apply (allb_sound _ _ _ H5). lia.
Qed.

Definition diag_firstb n Lp Li : bool :=
  allb 0 n (fun u => (Lp.[u] <? Lp.[S u]) && (Li.[Lp.[u]] =? u) &&
                     allb (S Lp.[u]) Lp.[S u] (fun k => negb (Li.[k] =? u))).

Lemma diag_firstb_ok n Lp Li : diag_firstb n Lp Li = true -> diag_first n Lp Li.
Proof.
  intros H u Hu. pose proof (allb_sound _ _ _ H u ltac:(lia)) as G; cbv beta in G.
  rewrite !andb_true_iff in G. destruct G as [[G1 G2] G3].
  apply Nat.ltb_lt in G1. apply Nat.eqb_eq in G2. splits; auto.
  intros k Hk. assert (S Lp.[u] <= k < Lp.[S u]) as Hb by lia. apply (allb_sound _ _ _ G3) in Hb. now apply Nat.eqb_neq, negb_true_iff.
Qed.

Definition lower_trib n Lp Li : bool :=
  allb 0 n (fun u => allb Lp.[u] Lp.[S u] (fun k => u <=? Li.[k])).

Lemma lower_trib_ok n Lp Li : lower_trib n Lp Li = true -> lower_tri n Lp Li.
Proof.
  intros H u v (Hu & [k [Hk E]] & N). pose proof (allb_sound _ _ _ H u ltac:(lia)) as G; cbv beta in G.
  apply (allb_sound _ _ _ G) in Hk. apply Nat.leb_le in Hk. lia.
Qed.

Definition sorted_colsb n Lp Li : bool :=
  allb 0 n (fun u => allb Lp.[u] Lp.[S u] (fun k => allb (S k) Lp.[S u] (fun k' => Li.[k] <? Li.[k']))).

Lemma sorted_colsb_ok n Lp Li : sorted_colsb n Lp Li = true -> sorted_cols n Lp Li.
Proof.
  intros H u k k' Hu Hk Hkk Hk'. pose proof (allb_sound _ _ _ H u ltac:(lia)) as G; cbv beta in G.
  pose proof (allb_sound _ _ _ G k ltac:(lia)) as G'; cbv beta in G'.
  assert (S k <= k' < Lp.[S u]) as Hb by lia. apply (allb_sound _ _ _ G') in Hb.
  now apply Nat.ltb_lt.
Qed.

Definition is_permb n (l : list nat) : bool :=
  (length l =? n) && allb 0 n (fun x => existsb (Nat.eqb x) l).

Lemma is_permb_ok n l : is_permb n l = true -> is_perm n l.
Proof.
  unfold is_permb. rewrite andb_true_iff. intros [H1 H2]. apply Nat.eqb_eq in H1.
  apply is_perm_Permutation. symmetry. apply NoDup_Permutation_bis.
  - apply seq_NoDup.
  - rewrite seq_length. lia.
  - intros x Hx. apply in_seq in Hx. apply (allb_sound _ _ _ H2) in Hx.
    apply existsb_exists in Hx. destruct Hx as [y [Hy E]]. apply Nat.eqb_eq in E. now subst.
Qed.

(** no cycles, witnessed by a numbering that increases along every edge *)
Definition acyclicb (rank : list nat) n Lp Li : bool :=
  allb 0 n (fun u => allb Lp.[u] Lp.[S u] (fun k => (Li.[k] =? u) || (rank.[u] <? rank.[Li.[k]]))).

Lemma acyclicb_ok rank n Lp Li : acyclicb rank n Lp Li = true -> acyclic (edge n Lp Li).
Proof.
  intros H.
  assert (R : forall u v, edge n Lp Li u v -> rank.[u] < rank.[v]).
  { intros u v (Hu & [k [Hk E]] & N). pose proof (allb_sound _ _ _ H u ltac:(lia)) as G; cbv beta in G.
    apply (allb_sound _ _ _ G) in Hk. apply orb_true_iff in Hk. rewrite E in Hk.
    destruct Hk as [Hk|Hk]; [apply Nat.eqb_eq in Hk; congruence|now apply Nat.ltb_lt in Hk]. }
  assert (G : forall u v k, chain (edge n Lp Li) u v k -> rank.[u] + k <= rank.[v]).
  { intros u v k Hc. induction Hc as [|u v w k Hc IH He]; [lia|]. specialize (R v w He). lia. }
  intros u k Hc. apply G in Hc. lia.
Qed.
