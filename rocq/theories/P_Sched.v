(** C09-C11: merging windows of levels into a coarse schedule (computeSchedule). *)
From Verif Require Import Base Lib Lib2 Spec Check M_CC M_PostOrder M_Sched L_Sched L_Sched2.
From Coq Require Import ZifyBool ZifyNat.

(** level sets of a graph, as the callers of computeSchedule build them *)
Definition levels_input n Lp Li k level_ptr level_set node_to_level : Prop :=
  level_partition n k level_ptr level_set /\
  level_ordered (edge n Lp Li) k level_ptr level_set /\
  k < length level_ptr /\ n <= length level_set /\ n <= length node_to_level /\
  (forall l v, l < k -> in_level level_ptr level_set l v -> node_to_level.[v] = l).

(** cut points 0 = WM[0] <= WM[1] <= ... = k *)
Definition cuts (k : nat) (WM : list nat) : Prop :=
  0 < length WM /\ WM.[0] = 0 /\ (forall i, S i < length WM -> WM.[i] <= WM.[S i]) /\
  WM.[length WM - 1] = k.

(** one row per window, non-decreasing, reaching the number of connected components
    of the window *)
Definition chunk_tables n Lp Li level_ptr level_set (WM : list nat) T (Chunk_Sizes : list (list nat)) : Prop :=
  0 < T /\
  forall wm, S wm < length WM ->
    wm < length Chunk_Sizes /\ T < length Chunk_Sizes.[wm] /\
    (forall i, 1 <= i < T -> Chunk_Sizes.[wm].[i] <= Chunk_Sizes.[wm].[S i]) /\
    (forall K, let nodes := slice level_set level_ptr.[WM.[wm]] level_ptr.[WM.[S wm]] in
       n_components (edge_within (edge n Lp Li) nodes) nodes K -> K <= Chunk_Sizes.[wm].[T]).

Lemma levels_input_rank n Lp Li k lp ls n2l : wf_csc n Lp Li -> levels_input n Lp Li k lp ls n2l ->
  forall u v, edge n Lp Li u v -> n2l.[u] < n2l.[v].
Proof.
  intros W (P & O & H1 & H2 & H3 & H4) u v He.
  pose proof (wf_edge_lt n Lp Li W u v He) as (Hu & Hv).
  assert (G : forall x, x < n -> exists l, l < k /\ in_level lp ls l x).
  { destruct P as (P0 & Pm & Pk & Pb & Pi). intros x Hx.
    destruct (inj_onto n (aget ls) Pb Pi x Hx) as (i & Hi & <-).
    destruct (bucket_exists (aget lp) k i) as (l & Hl & Hb); auto; try lia.
    exists l. split; auto. exists i. auto. }
  destruct (G u Hu) as (lu & Lu & Iu). destruct (G v Hv) as (lv & Lv & Iv).
  rewrite (H4 lu u Lu Iu), (H4 lv v Lv Iv). eapply O; eauto.
Qed.

(** C09.  Without packing.  The call succeeds (no access out of bounds, whatever value
    the stray read of the post order returns) and yields a valid schedule with one
    coarse level per window. *)
Theorem C09_schedule_components_valid :
  forall n Lp Li k level_ptr level_set node_to_level junk num_threads WM Chunk_Sizes postOrder,
  wf_csc n Lp Li -> levels_input n Lp Li k level_ptr level_set node_to_level -> cuts k WM ->
  (postOrder = true -> diag_first n Lp Li) ->
  exists no clp cpp cnp,
    computeSchedule n Lp Li level_ptr level_set node_to_level junk num_threads WM Chunk_Sizes false postOrder
      = Ok (no, clp, cpp, cnp) /\
    no = length WM - 1 /\ valid_schedule n (edge n Lp Li) no clp cpp cnp.
Proof.
  intros n Lp Li k lp ls n2l junk T WM CS post W LI (C1 & C2 & C3 & C4) HD.
  pose proof (levels_input_rank _ _ _ _ _ _ _ W LI) as HE. destruct LI as (P & O & H1 & H2 & H3 & H4).
  assert (G := computeSchedule_valid n k Lp Li lp ls n2l W P H1 H2 H3 H4 HE WM C1 C2 C3 C4 junk T CS false post HD
                ltac:(discriminate) ltac:(discriminate)).
  apply wp_ok in G. destruct G as ((((no & clp) & cpp) & cnp) & E & G). exists no, clp, cpp, cnp. auto.
Qed.
Print Assumptions C09_schedule_components_valid.

(** C10.  With packing, parts sorted by node id: lower triangular graphs. *)
Theorem C10_schedule_packed_ids_valid :
  forall n Lp Li k level_ptr level_set node_to_level junk num_threads WM Chunk_Sizes,
  wf_csc n Lp Li -> levels_input n Lp Li k level_ptr level_set node_to_level -> cuts k WM ->
  lower_tri n Lp Li -> chunk_tables n Lp Li level_ptr level_set WM num_threads Chunk_Sizes ->
  exists no clp cpp cnp,
    computeSchedule n Lp Li level_ptr level_set node_to_level junk num_threads WM Chunk_Sizes true false
      = Ok (no, clp, cpp, cnp) /\
    no = length WM - 1 /\ valid_schedule n (edge n Lp Li) no clp cpp cnp.
Proof.
  intros n Lp Li k lp ls n2l junk T WM CS W LI (C1 & C2 & C3 & C4) LT (T0 & CH).
  pose proof (levels_input_rank _ _ _ _ _ _ _ W LI) as HE. destruct LI as (P & O & H1 & H2 & H3 & H4).
  assert (HCH : chunks_ok n Lp Li lp ls WM T CS).
  { split; auto. intros wm Hwm. apply CH. lia. }
  assert (G := computeSchedule_valid n k Lp Li lp ls n2l W P H1 H2 H3 H4 HE WM C1 C2 C3 C4 junk T CS true false
                ltac:(discriminate) (fun _ _ => LT) (fun _ => HCH)).
  apply wp_ok in G. destruct G as ((((no & clp) & cpp) & cnp) & E & G). exists no, clp, cpp, cnp. auto.
Qed.
Print Assumptions C10_schedule_packed_ids_valid.

(** without that assumption on the numbering, everything but the order inside the parts *)
Theorem C10_schedule_packed_ids_parts :
  forall n Lp Li k level_ptr level_set node_to_level junk num_threads WM Chunk_Sizes,
  wf_csc n Lp Li -> levels_input n Lp Li k level_ptr level_set node_to_level -> cuts k WM ->
  chunk_tables n Lp Li level_ptr level_set WM num_threads Chunk_Sizes ->
  exists no clp cpp cnp,
    computeSchedule n Lp Li level_ptr level_set node_to_level junk num_threads WM Chunk_Sizes true false
      = Ok (no, clp, cpp, cnp) /\
    no = length WM - 1 /\ part_schedule n (edge n Lp Li) no clp cpp cnp.
Proof.
  intros n Lp Li k lp ls n2l junk T WM CS W LI (C1 & C2 & C3 & C4) (T0 & CH).
  pose proof (levels_input_rank _ _ _ _ _ _ _ W LI) as HE. destruct LI as (P & O & H1 & H2 & H3 & H4).
  assert (HCH : chunks_ok n Lp Li lp ls WM T CS).
  { split; auto. intros wm Hwm. apply CH. lia. }
  assert (G := computeSchedule_valid0 n k Lp Li lp ls n2l W P H1 H2 H3 H4 HE WM C1 C2 C3 C4 junk T CS true false
                ltac:(discriminate) (fun _ => HCH)).
  apply wp_ok in G. destruct G as ((((no & clp) & cpp) & cnp) & E & G1 & G2 & _). exists no, clp, cpp, cnp. auto.
Qed.
Print Assumptions C10_schedule_packed_ids_parts.

(** C11.  With packing, parts sorted by DFS post order: any numbering. *)
Theorem C11_schedule_packed_post_order_valid :
  forall n Lp Li k level_ptr level_set node_to_level junk num_threads WM Chunk_Sizes,
  wf_csc n Lp Li -> levels_input n Lp Li k level_ptr level_set node_to_level -> cuts k WM ->
  diag_first n Lp Li -> chunk_tables n Lp Li level_ptr level_set WM num_threads Chunk_Sizes ->
  exists no clp cpp cnp,
    computeSchedule n Lp Li level_ptr level_set node_to_level junk num_threads WM Chunk_Sizes true true
      = Ok (no, clp, cpp, cnp) /\
    no = length WM - 1 /\ valid_schedule n (edge n Lp Li) no clp cpp cnp.
Proof.
  intros n Lp Li k lp ls n2l junk T WM CS W LI (C1 & C2 & C3 & C4) DF (T0 & CH).
  pose proof (levels_input_rank _ _ _ _ _ _ _ W LI) as HE. destruct LI as (P & O & H1 & H2 & H3 & H4).
  assert (HCH : chunks_ok n Lp Li lp ls WM T CS).
  { split; auto. intros wm Hwm. apply CH. lia. }
  assert (G := computeSchedule_valid n k Lp Li lp ls n2l W P H1 H2 H3 H4 HE WM C1 C2 C3 C4 junk T CS true true
                (fun _ => DF) ltac:(discriminate) (fun _ => HCH)).
  apply wp_ok in G. destruct G as ((((no & clp) & cpp) & cnp) & E & G). exists no, clp, cpp, cnp. auto.
Qed.
Print Assumptions C11_schedule_packed_post_order_valid.

(** ** A concrete case: two trees; the window covers the first two of three levels. *)

(** 0 -> 2, 1 -> 3, 2 -> 4, 3 -> 4 *)
Notation exLp := [0;2;4;6;8;9].
Notation exLi := [0;2;1;3;2;4;3;4;4].

Lemma ex_level_cases (P : nat -> Prop) : P 0 -> P 1 -> P 2 -> forall l, l < 3 -> P l.
Proof. intros H0 H1 H2 [|[|[|l]]] H; auto; lia. Qed.

Lemma ex_in_level l v : l < 3 -> in_level [0;2;4;5] [0;1;2;3;4] l v -> [0;0;1;1;2].[v] = l.
Proof.
  intros Hl (k & Hk & <-).
  destruct l as [|[|[|l]]]; [| | |lia]; unfold aget in *; simpl in *;
    destruct k as [|[|[|[|[|k]]]]]; simpl; auto; lia.
Qed.

Lemma ex_levels : levels_input 5 exLp exLi 3 [0;2;4;5] [0;1;2;3;4] [0;0;1;1;2].
Proof.
  unfold levels_input. splits; try (simpl; lia).
  - unfold level_partition. splits; auto.
    + apply ex_level_cases; unfold aget; simpl; lia.
    + intros [|[|[|[|[|i]]]]] Hi; unfold aget; simpl; lia.
    + intros [|[|[|[|[|i]]]]] [|[|[|[|[|j]]]]] Hi Hj; unfold aget; simpl; lia.
  - intros u v lu lv He Hu Hv Iu Iv.
    apply ex_in_level in Iu; auto. apply ex_in_level in Iv; auto. subst lu lv. clear Hu Hv.
    destruct He as (Hu & (e & He & <-) & Hn). revert He Hn.
    destruct u as [|[|[|[|[|u]]]]]; try lia; unfold aget; simpl; intros He Hn;
      destruct e as [|[|[|[|[|[|[|[|[|e]]]]]]]]]; simpl in *; lia.
  - apply ex_in_level.
Qed.

Example C09_case : wf_csc 5 exLp exLi /\ diag_first 5 exLp exLi /\ lower_tri 5 exLp exLi /\
  levels_input 5 exLp exLi 3 [0;2;4;5] [0;1;2;3;4] [0;0;1;1;2] /\ cuts 3 [0;2;3] /\
  computeSchedule 5 exLp exLi [0;2;4;5] [0;1;2;3;4] [0;0;1;1;2] 99 2 [0;2;3] [] false false
    = Ok (2, [0;2;3], [0;2;4;5], [0;2;1;3;4]).
Proof.
  splits.
  - now apply wf_cscb_ok.
  - now apply diag_firstb_ok.
  - now apply lower_trib_ok.
  - apply ex_levels.
  - unfold cuts. splits; auto; try (simpl; lia). intros [|[|i]] Hi; simpl in *; unfold aget; simpl; lia.
  - vm_compute. reflexivity.
Qed.

(** never more components than nodes, so a row ending in 4 (resp. 1) is admissible *)
Lemma n_components_le R nodes K : n_components R nodes K -> K <= length nodes.
Proof.
  intros (reps & <- & ND & Hin & _). apply NoDup_incl_length; auto.
Qed.

Example C10_case :
  chunk_tables 5 exLp exLi [0;2;4;5] [0;1;2;3;4] [0;2;3] 2 [[0;1;4];[0;1;1]] /\
  computeSchedule 5 exLp exLi [0;2;4;5] [0;1;2;3;4] [0;0;1;1;2] 99 2 [0;2;3] [[0;1;4];[0;1;1]] true false
    = Ok (2, [0;2;4], [0;2;4;5;5], [0;2;1;3;4]) /\
  computeSchedule 5 exLp exLi [0;2;4;5] [0;1;2;3;4] [0;0;1;1;2] 99 2 [0;2;3] [[0;1;4];[0;1;1]] true true
    = Ok (2, [0;2;4], [0;2;4;5;5], [0;2;1;3;4]).
Proof.
  splits; try (vm_compute; reflexivity).
  split; [lia|]. intros [|[|wm]] Hwm; [| |simpl in Hwm; lia]; splits; try (unfold aget; simpl; lia).
  - intros i Hi. assert (i = 1) as -> by lia. unfold aget; simpl; lia.
  - intros K nodes HK. apply n_components_le in HK. exact HK.
  - intros i Hi. assert (i = 1) as -> by lia. unfold aget; simpl; lia.
  - intros K nodes HK. apply n_components_le in HK. exact HK.
Qed.
