(** Boolean checkers for concrete groupings and graphs, used by the examples. *)
From Coq Require Import ZifyBool ZifyNat.
From Verif Require Import Base Lib Spec SpecSolve SpecGroup Check CheckS.

Definition edgeb n (Lp Li : list nat) u v : bool :=
  (u <? n) && negb (u =? v) && existsb (fun k => Li.[k] =? v) (seq Lp.[u] (Lp.[S u] - Lp.[u])).

Lemma edgeb_ok n Lp Li u v : edge n Lp Li u v -> edgeb n Lp Li u v = true.
Proof.
  intros (Hu & (k & Hk & E) & Hne). unfold edgeb. rewrite !andb_true_iff. splits; try lia.
  apply existsb_exists. exists k. split; [apply in_seq; lia|]. now apply Nat.eqb_eq.
Qed.

Definition groupingb n ng (gp gs : list nat) : bool :=
  (length gp =? S ng) && (length gs =? n) && level_partitionb n ng gp gs && allb 0 ng (fun g => gp.[g] <? gp.[S g]).

Lemma groupingb_ok n ng gp gs : groupingb n ng gp gs = true -> grouping n ng gp gs.
Proof.
  unfold groupingb. rewrite !andb_true_iff. intros (((H1 & H2) & H3) & H4). unfold grouping. splits; try lia.
  - now apply level_partitionb_ok.
  - intros g Hg. pose proof (allb_sound _ _ _ H4 g ltac:(lia)) as Hx. cbv beta in Hx. lia.
Qed.

Definition tri_inputb n (Lp Li : list nat) : bool :=
  wf_cscb n Lp Li && (length Lp =? S n) && (length Li =? Lp.[n]) && diag_firstb n Lp Li && lower_trib n Lp Li && (0 <? n).

Lemma tri_inputb_parts n Lp Li : tri_inputb n Lp Li = true ->
  wf_csc n Lp Li /\ length Lp = S n /\ length Li = Lp.[n] /\ one_diag n Lp Li /\ lower_tri n Lp Li /\ 0 < n.
Proof.
  unfold tri_inputb. rewrite !andb_true_iff. intros (((((H1 & H2) & H3) & H4) & H5) & H6). splits; try lia.
  - now apply wf_cscb_ok.
  - apply one_diag_of_first. now apply diag_firstb_ok.
  - now apply lower_trib_ok.
Qed.

Lemma valid_part n E no lp pp np : valid_schedule n E no lp pp np -> part_schedule n E no lp pp np.
Proof.
  intros (H1 & H2 & H3). split; [auto|split; auto]. intros u v lu pu ku lv pv kv He Hu Hv Au Av.
  destruct (H3 u v lu pu ku lv pv kv He Hu Hv Au Av) as [|(? & ? & ?)]; auto.
Qed.
