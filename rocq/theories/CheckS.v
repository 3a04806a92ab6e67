(** CheckS: boolean tests for schedules, level sets and row matrices, used only to
    exhibit concrete inputs meeting the hypotheses of the theorems. *)
From Coq Require Import ZifyBool ZifyNat.
From Verif Require Import Base Lib Spec SpecSolve Check.

Definition wf_rowsb n Lp Li : bool := wf_cscb n Lp Li && allb 0 n (fun i => Lp.[i] <? Lp.[S i]).

Lemma wf_rowsb_ok n Lp Li : wf_rowsb n Lp Li = true -> wf_rows n Lp Li.
Proof.
  unfold wf_rowsb. rewrite andb_true_iff. intros [H1 H2]. split; [now apply wf_cscb_ok|].
  intros i Hi. apply Nat.ltb_lt. apply (allb_sound _ _ _ H2). lia.
Qed.

Definition row_depb n Lp Li u v : bool :=
  (v <? n) && existsb (fun j => Li.[j] =? u) (seq Lp.[v] (Lp.[S v] - 1 - Lp.[v])).

Lemma row_depb_ok n Lp Li u v : row_dep n Lp Li u v -> row_depb n Lp Li u v = true.
Proof.
  intros (Hv & j & Hj & E). unfold row_depb. rewrite andb_true_iff. split; [lia|].
  apply existsb_exists. exists j. split; [apply in_seq; lia|lia].
Qed.

Definition rows_lowerb n Lp Li : bool :=
  allb 0 n (fun v => allb Lp.[v] (Lp.[S v] - 1) (fun j => Li.[j] <? v)).

Lemma rows_lowerb_ok n Lp Li : rows_lowerb n Lp Li = true -> rows_lower n Lp Li.
Proof.
  intros H u v (Hv & j & Hj & E). pose proof (allb_sound _ _ _ H v ltac:(lia)) as G; cbv beta in G.
  pose proof (allb_sound _ _ _ G j ltac:(lia)) as G'; cbv beta in G'. lia.
Qed.

Definition bijb n (s : list nat) : bool :=
  allb 0 n (fun i => s.[i] <? n) && allb 0 n (fun i => allb 0 n (fun j => (i =? j) || negb (s.[i] =? s.[j]))).

Lemma bijb_ok n s : bijb n s = true ->
  (forall i, i < n -> s.[i] < n) /\ (forall i j, i < n -> j < n -> s.[i] = s.[j] -> i = j).
Proof.
  unfold bijb. rewrite andb_true_iff. intros [H1 H2]. split.
  - intros i Hi. pose proof (allb_sound _ _ _ H1 i ltac:(lia)) as G; cbv beta in G. lia.
  - intros i j Hi Hj E. pose proof (allb_sound _ _ _ H2 i ltac:(lia)) as G; cbv beta in G.
    pose proof (allb_sound _ _ _ G j ltac:(lia)) as G'; cbv beta in G'. lia.
Qed.

Definition level_partitionb n k (lp ls : list nat) : bool :=
  (lp.[0] =? 0) && allb 0 k (fun l => lp.[l] <=? lp.[S l]) && (lp.[k] =? n) && bijb n ls.

Lemma level_partitionb_ok n k lp ls : level_partitionb n k lp ls = true -> level_partition n k lp ls.
Proof.
  unfold level_partitionb. rewrite !andb_true_iff. intros (((H1 & H2) & H3) & H4).
  apply bijb_ok in H4. destruct H4. unfold level_partition. splits; auto; try lia.
  intros l Hl. pose proof (allb_sound _ _ _ H2 l ltac:(lia)) as G; cbv beta in G. lia.
Qed.

(** [eb] decides at least the dependences *)
Definition level_orderedb (eb : nat -> nat -> bool) k (lp ls : list nat) : bool :=
  allb 0 k (fun lu => allb 0 k (fun lv => allb lp.[lu] lp.[S lu] (fun i => allb lp.[lv] lp.[S lv] (fun j =>
    negb (eb ls.[i] ls.[j]) || (lu <? lv))))).

Lemma level_orderedb_ok (E : nat -> nat -> Prop) eb k lp ls : (forall u v, E u v -> eb u v = true) ->
  level_orderedb eb k lp ls = true -> level_ordered E k lp ls.
Proof.
  intros HE H u v lu lv He Hlu Hlv (i & Hi & <-) (j & Hj & <-).
  pose proof (allb_sound _ _ _ H lu ltac:(lia)) as G1; cbv beta in G1.
  pose proof (allb_sound _ _ _ G1 lv ltac:(lia)) as G2; cbv beta in G2.
  pose proof (allb_sound _ _ _ G2 i ltac:(lia)) as G3; cbv beta in G3.
  pose proof (allb_sound _ _ _ G3 j ltac:(lia)) as G4; cbv beta in G4.
  rewrite HE in G4 by auto. simpl in G4. lia.
Qed.

Definition valid_scheduleb n (eb : nat -> nat -> bool) no (clp cpp cnp : list nat) : bool :=
  (no <? length clp) && (clp.[0] =? 0) && allb 0 no (fun l => clp.[l] <=? clp.[S l]) &&
  (clp.[no] <? length cpp) && (cpp.[0] =? 0) && allb 0 clp.[no] (fun p => cpp.[p] <=? cpp.[S p]) &&
  (cpp.[clp.[no]] =? n) && (n <=? length cnp) && bijb n cnp &&
  allb 0 no (fun l => allb 0 no (fun l' => allb clp.[l] clp.[S l] (fun p => allb clp.[l'] clp.[S l'] (fun p' =>
    allb cpp.[p] cpp.[S p] (fun k => allb cpp.[p'] cpp.[S p'] (fun k' =>
      negb (eb cnp.[k] cnp.[k']) || (l <? l') || ((l =? l') && (p =? p') && (k <? k')))))))).

Lemma valid_scheduleb_ok n (E : nat -> nat -> Prop) eb no clp cpp cnp : (forall u v, E u v -> eb u v = true) ->
  valid_scheduleb n eb no clp cpp cnp = true -> valid_schedule n E no clp cpp cnp.
Proof.
  intros HE. unfold valid_scheduleb. rewrite !andb_true_iff. intros (((((((((H1 & H2) & H3) & H4) & H5) & H6) & H7) & H8) & H9) & H).
  apply bijb_ok in H9. split; [|split; auto].
  - unfold sched_wf. splits; try lia.
    + intros i Hi. pose proof (allb_sound _ _ _ H3 i ltac:(lia)) as G; cbv beta in G. lia.
    + intros i Hi. pose proof (allb_sound _ _ _ H6 i ltac:(lia)) as G; cbv beta in G. lia.
  - intros u v lu pu ku lv pv kv He Hlu Hlv (A1 & A2 & <-) (B1 & B2 & <-).
    pose proof (allb_sound _ _ _ H lu ltac:(lia)) as G1; cbv beta in G1.
    pose proof (allb_sound _ _ _ G1 lv ltac:(lia)) as G2; cbv beta in G2.
    pose proof (allb_sound _ _ _ G2 pu ltac:(lia)) as G3; cbv beta in G3.
    pose proof (allb_sound _ _ _ G3 pv ltac:(lia)) as G4; cbv beta in G4.
    pose proof (allb_sound _ _ _ G4 ku ltac:(lia)) as G5; cbv beta in G5.
    pose proof (allb_sound _ _ _ G5 kv ltac:(lia)) as G6; cbv beta in G6.
    rewrite HE in G6 by auto. simpl in G6. lia.
Qed.

Definition group_orderedb (eb : nat -> nat -> bool) ng (gp gs : list nat) : bool :=
  allb 0 ng (fun g => allb gp.[g] gp.[S g] (fun k => allb gp.[g] gp.[S g] (fun k' =>
    negb (eb gs.[k] gs.[k']) || (k <? k')))).

Lemma group_orderedb_ok (E : nat -> nat -> Prop) eb ng gp gs : (forall u v, E u v -> eb u v = true) ->
  group_orderedb eb ng gp gs = true -> group_ordered E ng gp gs.
Proof.
  intros HE H g k k' Hg Hk Hk' He. pose proof (allb_sound _ _ _ H g ltac:(lia)) as G1; cbv beta in G1.
  pose proof (allb_sound _ _ _ G1 k ltac:(lia)) as G2; cbv beta in G2.
  pose proof (allb_sound _ _ _ G2 k' ltac:(lia)) as G3; cbv beta in G3.
  rewrite HE in G3 by auto. simpl in G3. lia.
Qed.

Definition quotientb (eb : nat -> nat -> bool) (gp gs : list nat) (g h : nat) : bool :=
  negb (g =? h) && existsb (fun i => existsb (fun j => eb gs.[i] gs.[j]) (seq gp.[h] (gp.[S h] - gp.[h]))) (seq gp.[g] (gp.[S g] - gp.[g])).

Lemma quotientb_ok (E : nat -> nat -> Prop) eb ng gp gs : (forall u v, E u v -> eb u v = true) ->
  forall g h, quotient E ng gp gs g h -> quotientb eb gp gs g h = true.
Proof.
  intros HE g h (Hg & Hh & Hn & u & v & (i & Hi & <-) & (j & Hj & <-) & He). unfold quotientb.
  apply andb_true_iff. split; [lia|].
  apply existsb_exists. exists i. split; [apply in_seq; lia|].
  apply existsb_exists. exists j. split; [apply in_seq; lia|auto].
Qed.
