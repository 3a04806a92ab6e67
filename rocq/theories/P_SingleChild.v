(** Properties C129 (startSingleChildGrouping) and C130 (fs_ic0csc_inspector_group). *)
From Coq Require Import ZifyBool ZifyNat.
From Verif Require Import Base Lib Lib2 Spec SpecMat SpecSolve Check M_Collect P_Collect M_Greedy.

(** * C129 *)

Lemma count_in_wp n nodes edges : wf_csc n nodes edges -> wp (count_in n nodes edges) (fun cnt => length cnt = n).
Proof.
  intros (W1 & W2 & W3 & W4 & W5). unfold count_in. apply (wp_for (fun _ (cnt : list nat) => length cnt = n)); [lia|now rewrite repeat_length| |auto].
  intros v cnt Hv L. apply wp_bind. apply wp_rd; [lia|]. apply wp_bind. apply wp_rd; [lia|]. pose proof (W3 v ltac:(lia)).
  assert (nodes.[S v] <= nodes.[n]) by (apply (mono_le (aget nodes) n); auto; lia).
  apply (wp_for (fun _ (cnt : list nat) => length cnt = n)); [lia|auto| |auto]. intros k c Hk Lc. apply wp_bind. apply wp_rd; [lia|].
  pose proof (W5 k ltac:(lia)). apply wp_bind. apply wp_rd; [lia|]. apply wp_wr; [lia|]. now rewrite upd_length.
Qed.

Lemma sc_chain_id n nodes edges cnt node g gset gptr inv grouped pos : wf_csc n nodes edges -> node < n ->
  sc_chain n nodes edges cnt node g gset gptr inv grouped pos node = Ok (gset, gptr, inv, grouped, pos, node).
Proof.
  intros (W1 & W2 & W3 & W4 & W5) Hn. unfold sc_chain. cbn [while_]. rewrite !rd_ok by lia. cbn [bind].
  assert (nodes.[S node] <= nodes.[n]) by (apply (mono_le (aget nodes) n); auto; lia).
  destruct (Nat.ltb_spec 1 (nodes.[S node] - nodes.[node])) as [C|C].
  - rewrite rd_ok by lia. cbn [bind]. replace (nodes.[S node] - nodes.[node] =? 1) with false by lia. reflexivity.
  - reflexivity.
Qed.

Definition ident (n : nat) (l : list nat) : Prop := length l = n /\ forall i, i < n -> l.[i] = i.

(** C129.  The condition for following a child (more than one child, and exactly one) is never true: every node stays a
    group of its own, for every graph. *)
Theorem C129_singletons : forall n nodes edges, wf_csc n nodes edges ->
  exists gset gptr inv grouped, sc_groups n nodes edges = Ok (gset, gptr, inv, grouped, n, n) /\ ident n gset /\ ident (S n) gptr /\ ident n inv.
Proof.
  intros n nodes edges W.
  assert (G : wp (sc_groups n nodes edges) (fun '(gset, gptr, inv, grouped, pos, g) => pos = n /\ g = n /\ ident n gset /\ ident (S n) gptr /\ ident n inv)).
  { unfold sc_groups. apply wp_bind. eapply wp_mono; [now apply count_in_wp|]. intros cnt Lc. cbn beta.
    apply (wp_for (fun k '(gset, gptr, inv, grouped, pos, g) => pos = k /\ g = k /\
      (length gset = n /\ forall i, i < k -> gset.[i] = i) /\ (length gptr = S n /\ (forall i, i <= k -> gptr.[i] = i) /\ forall i, k < i <= n -> gptr.[i] = 0) /\
      (length inv = n /\ forall i, i < k -> inv.[i] = i) /\ (length grouped = n /\ forall i, k <= i < n -> grouped.[i] = 0))); [lia| | |].
    - rewrite !repeat_length. splits; auto; intros i Hi; try lia.
      + replace i with 0 by lia. reflexivity.
      + now rewrite aget_repeat by lia.
      + now rewrite aget_repeat by lia.
    - intros k [[[[[gset gptr] inv] grouped] pos] g] Hk (-> & -> & (S1 & S2) & (P1 & P2 & P3) & (I1 & I2) & (Q1 & Q2)).
      apply wp_bind. apply wp_rd; [lia|]. rewrite Q2 by lia. cbn [Nat.eqb negb].
      apply wp_bind. apply wp_wr; [lia|]. apply wp_bind. apply wp_wr; [lia|]. apply wp_bind. apply wp_wr; [lia|].
      apply wp_bind. apply wp_rd; [lia|]. apply wp_bind. apply wp_wr; [lia|]. rewrite sc_chain_id by (auto; lia). cbn [bind].
      apply wp_bind. apply wp_rd; [rewrite upd_length; lia|]. apply wp_bind. apply wp_rd; [rewrite upd_length; lia|].
      apply wp_bind. apply wp_wr; [rewrite upd_length; lia|]. apply wp_ret. rewrite !upd_length. rewrite aget_upd_eq, aget_upd_ne by lia.
      rewrite (P3 (S k)), (P2 k) by lia. splits; auto.
      + intros i Hi. destruct (Nat.eq_dec i k) as [->|]; [now rewrite aget_upd_eq by lia|]. rewrite aget_upd_ne by auto. apply S2. lia.
      + intros i Hi. destruct (Nat.eq_dec i (S k)) as [->|]; [rewrite aget_upd_eq by (rewrite upd_length; lia); lia|]. rewrite !aget_upd_ne by auto. apply P2. lia.
      + intros i Hi. rewrite !aget_upd_ne by lia. apply P3. lia.
      + intros i Hi. destruct (Nat.eq_dec i k) as [->|]; [now rewrite aget_upd_eq by lia|]. rewrite aget_upd_ne by auto. apply I2. lia.
      + intros i Hi. rewrite aget_upd_ne by lia. apply Q2. lia.
    - intros [[[[[gset gptr] inv] grouped] pos] g] (-> & -> & (S1 & S2) & (P1 & P2 & P3) & (I1 & I2) & _). unfold ident. splits; auto. intros i Hi. apply P2. lia. }
  apply wp_ok in G. destruct G as ([[[[[gset gptr] inv] grouped] pos] g] & E & -> & -> & A & B & C). exists gset, gptr, inv, grouped. auto.
Qed.
Print Assumptions C129_singletons.

Lemma cn_graph_oob n nnz nodes edges gset gptr inv g : length gset = n -> 0 < g -> gptr.[g] = n ->
  cn_graph n nnz nodes edges gset gptr inv g = Err OOB.
Proof.
  intros HS H0 Hp.
  assert (G : oob_or (cn_graph n nnz nodes edges gset gptr inv g) (fun _ => False)).
  2:{ destruct (cn_graph n nnz nodes edges gset gptr inv g); simpl in G; [tauto|congruence]. }
  unfold cn_graph. apply (oo_for (fun i _ => i < g)); [lia|lia| |intros s; lia].
  intros j [cn ce] Hj _. oo1. oo1. intros _. oo1. oo1. intros _. oo1. oo1. intros _. oo1. oo1. intros Hb.
  assert (S j < g) by (destruct (Nat.eq_dec (S j) g) as [E|]; [subst g; lia|lia]).
  oo1. oo1. intros _. oo1. oo1. intros _. oo1. apply oo_mono with (fun _ => True).
  { apply oo_for_true. intros k kids. oo1. oo1. intros _. destruct (_ <=? _); [oo1; oo1; intros _; now oo1|now oo1]. }
  intros kids _. oo1. oo1. intros _. oo1. oo1. intros _. oo1. eapply oo_mono; [apply oo_foreach|].
  + intros x [ce' k]. oo1. oo1. intros _. now oo1.
  + intros [ce' k] _. oo1. auto.
Qed.

(** Then the compressed graph is built, and for the last group group_set is read at index n, one behind its end. *)
Theorem C129_out_of_bounds : forall n nodes edges, 0 < n -> wf_csc n nodes edges -> startSingleChildGrouping n nodes edges = Err OOB.
Proof.
  intros n nodes edges Hn W. destruct (C129_singletons n nodes edges W) as (gset & gptr & inv & gr & E & (A1 & A2) & (B1 & B2) & _).
  unfold startSingleChildGrouping. rewrite rd_ok by (apply W). cbn [bind]. rewrite E. cbn [bind]. rewrite cn_graph_oob; auto.
Qed.
Print Assumptions C129_out_of_bounds.

Example C129_nonvacuous : wf_csc 4 [0;1;2;3;4] [1;2;3;3] /\ startSingleChildGrouping 4 [0;1;2;3;4] [1;2;3;3] = Err OOB /\
  sc_groups 4 [0;1;2;3;4] [1;2;3;3] = Ok ([0;1;2;3], [0;1;2;3;4], [0;1;2;3], [1;1;1;1], 4, 4).
Proof. split; [now apply wf_cscb_ok|vm_compute; auto]. Qed.

(** * C130 *)

(** the entries of the columns listed in a group without the first of each, as groups, without those of the group itself *)
Definition group_rows (gp gs gInv Lp Li : list nat) (i : nat) : list nat :=
  filter (fun s => negb (s =? i))
    (flat_map (fun j => map (fun k => gInv.[Li.[k]]) (seq (S Lp.[gs.[j]]) (Lp.[S gs.[j]] - S Lp.[gs.[j]]))) (seq gp.[i] (gp.[S i] - gp.[i]))).

(** C130.  Node i of the group graph gets exactly these edges, with repetitions and in this order. *)
Theorem C130_inspector : forall n ng gp gs gInv Lp Li DAG, wf_csc n Lp Li -> ng < length gp -> (forall i, i < ng -> gp.[i] <= gp.[S i]) ->
  gp.[ng] <= length gs -> (forall j, j < gp.[ng] -> gs.[j] < n) -> n <= length gInv -> ng <= length DAG ->
  exists DAG', fs_ic0csc_inspector_group ng gp gs gInv Lp Li DAG = Ok DAG' /\ length DAG' = length DAG /\
    (forall i, i < ng -> DAG'.[i] = DAG.[i] ++ group_rows gp gs gInv Lp Li i) /\ (forall i, ng <= i -> DAG'.[i] = DAG.[i]).
Proof.
  intros n ng gp gs gInv Lp Li DAG (W1 & W2 & W3 & W4 & W5) LG MG HG HS HI HD. apply wp_ok. unfold fs_ic0csc_inspector_group.
  apply (wp_for (fun c (D : list (list nat)) => length D = length DAG /\ (forall i, i < c -> D.[i] = DAG.[i] ++ group_rows gp gs gInv Lp Li i) /\ (forall i, c <= i -> D.[i] = DAG.[i]))); [lia| | |auto].
  - splits; auto. intros; lia.
  - intros i D Hi (L & I1 & I2). apply wp_bind. apply wp_rd; [lia|]. apply wp_bind. apply wp_rd; [lia|].
    pose proof (MG i ltac:(lia)) as MI. assert (gp.[S i] <= gp.[ng]) by (apply (mono_le (aget gp) ng); auto; lia).
    set (f := fun j => map (fun k => gInv.[Li.[k]]) (seq (S Lp.[gs.[j]]) (Lp.[S gs.[j]] - S Lp.[gs.[j]]))).
    apply (wp_for (fun j (D' : list (list nat)) => length D' = length DAG /\ D'.[i] = DAG.[i] ++ filter (fun s => negb (s =? i)) (flat_map f (seq gp.[i] (j - gp.[i]))) /\
       forall i', i' <> i -> D'.[i'] = D.[i'])); [lia| | |].
    + rewrite Nat.sub_diag. cbn. rewrite app_nil_r. splits; auto.
    + intros j D1 Hj (J1 & J2 & J3). apply wp_bind. apply wp_rd; [lia|]. pose proof (HS j ltac:(lia)) as HN. set (u := gs.[j]) in *.
      apply wp_bind. apply wp_rd; [lia|]. apply wp_bind. apply wp_rd; [lia|]. pose proof (W3 u HN). assert (Lp.[S u] <= Lp.[n]) by (apply (mono_le (aget Lp) n); auto; lia).
      assert (EQ : flat_map f (seq gp.[i] (S j - gp.[i])) = flat_map f (seq gp.[i] (j - gp.[i])) ++ f j).
      { replace (S j - gp.[i]) with (S (j - gp.[i])) by lia. rewrite seq_S, flat_map_app. cbn [flat_map]. rewrite app_nil_r. do 2 f_equal. lia. }
      rewrite EQ, filter_app. destruct (Nat.le_gt_cases (S Lp.[u]) Lp.[S u]) as [C|C].
      * apply (wp_for (fun k (D' : list (list nat)) => length D' = length DAG /\
           D'.[i] = D1.[i] ++ filter (fun s => negb (s =? i)) (map (fun k => gInv.[Li.[k]]) (seq (S Lp.[u]) (k - S Lp.[u]))) /\
           forall i', i' <> i -> D'.[i'] = D.[i'])); [lia| | |].
        -- rewrite Nat.sub_diag. cbn. rewrite app_nil_r. splits; auto.
        -- intros k D2 Hk (K1 & K2 & K3). apply wp_bind. apply wp_rd; [lia|]. pose proof (W5 k ltac:(lia)). apply wp_bind. apply wp_rd; [lia|].
           replace (S k - S Lp.[u]) with (S (k - S Lp.[u])) by lia. rewrite seq_S, map_app, filter_app, app_assoc, <- K2. cbn [map filter].
           replace (S Lp.[u] + (k - S Lp.[u])) with k by lia. destruct (Nat.eqb_spec gInv.[Li.[k]] i) as [E|N]; cbn [negb].
           ++ apply wp_ret. rewrite app_nil_r. splits; auto.
           ++ apply wp_bind. apply wp_rd; [lia|]. apply wp_wr; [lia|]. rewrite upd_length. splits; auto; [now rewrite aget_upd_eq by lia|].
              intros i' Hn. rewrite aget_upd_ne by auto. auto.
        -- intros D2 (K1 & K2 & K3). splits; auto. rewrite K2, J2, <- app_assoc. reflexivity.
      * unfold for_. replace (Lp.[S u] - S Lp.[u]) with 0 by lia. cbn [for_n]. apply wp_ret. splits; auto.
        unfold f. fold u. replace (Lp.[S u] - S Lp.[u]) with 0 by lia. cbn [seq map filter]. rewrite app_nil_r. auto.
    + intros D1 (J1 & J2 & J3). splits; auto.
      * intros i' Hi'. destruct (Nat.eq_dec i' i) as [->|]; [exact J2|]. rewrite J3 by auto. apply I1. lia.
      * intros i' Hi'. rewrite J3 by lia. apply I2. lia.
Qed.
Print Assumptions C130_inspector.

(** For the columns of a lower triangular matrix with sorted columns (diagonal first) the edges are exactly those between
    different groups. *)
Theorem C130_edges : forall n ng gp gs gInv Lp Li, wf_csc n Lp Li -> one_diag n Lp Li -> lower_tri n Lp Li -> sorted_cols n Lp Li ->
  (forall i, i < ng -> gp.[i] <= gp.[S i]) -> (forall j, j < gp.[ng] -> gs.[j] < n) ->
  (forall u i, u < n -> i < ng -> (gInv.[u] = i <-> exists j, gp.[i] <= j < gp.[S i] /\ gs.[j] = u)) ->
  forall i h, i < ng -> (In h (group_rows gp gs gInv Lp Li i) <-> i <> h /\ exists u v, edge n Lp Li u v /\ gInv.[u] = i /\ gInv.[v] = h).
Proof.
  intros n ng gp gs gInv Lp Li (W1 & W2 & W3 & W4 & W5) OD LT SO MG HS HI i h Hi. unfold group_rows. rewrite filter_In, in_flat_map. split.
  - intros ((j & Hj & Hm) & Hn). apply in_seq in Hj. apply in_map_iff in Hm. destruct Hm as (k & Ek & Hk). apply in_seq in Hk. split; [lia|].
    assert (gp.[S i] <= gp.[ng]) by (apply (mono_le (aget gp) ng); auto; lia). pose proof (HS j ltac:(lia)) as HN.
    exists gs.[j], Li.[k]. splits; auto; [|apply HI; auto; exists j; split; auto; lia].
    split; [auto|]. split; [exists k; split; auto; lia|]. pose proof (SO gs.[j] Lp.[gs.[j]] k HN ltac:(lia) ltac:(lia) ltac:(lia)) as S1.
    destruct (OD gs.[j] HN) as (d & (Hd & Ed) & _). intros E. destruct (Nat.eq_dec d Lp.[gs.[j]]) as [->|Nd]; [lia|].
    pose proof (SO gs.[j] Lp.[gs.[j]] d HN ltac:(lia) ltac:(lia) ltac:(lia)) as S2. assert (DE : edge n Lp Li gs.[j] Li.[Lp.[gs.[j]]]).
    { split; auto. split; [exists Lp.[gs.[j]]; split; auto; lia|lia]. }
    apply LT in DE. lia.
  - intros (Hn & u & v & ED & Eu & Ev). pose proof (LT u v ED) as Hlt. destruct ED as (Hu & (k & Hk & <-) & _). split; [|lia].
    apply (HI u i Hu Hi) in Eu. destruct Eu as (j & Hj & <-). exists j. split; [apply in_seq; lia|]. apply in_map_iff. exists k. split; auto. apply in_seq.
    destruct (Nat.eq_dec k Lp.[gs.[j]]) as [->|]; [|lia]. exfalso. destruct (OD gs.[j] Hu) as (d & (Hd & Ed) & _).
    destruct (Nat.eq_dec d Lp.[gs.[j]]) as [->|]; [lia|]. pose proof (SO gs.[j] Lp.[gs.[j]] d Hu ltac:(lia) ltac:(lia) ltac:(lia)). lia.
Qed.
Print Assumptions C130_edges.

Example C130_nonvacuous : let Lp := [0;3;5;6;8;10;11] in let Li := [0;1;2; 1;4; 2; 3;5; 4;5; 5] in
  wf_csc 6 Lp Li /\ one_diag 6 Lp Li /\ lower_tri 6 Lp Li /\ sorted_cols 6 Lp Li /\
  fs_ic0csc_inspector_group 3 [0;3;4;6] [0;1;2;3;4;5] [0;0;0;1;2;2] Lp Li [[];[];[]] = Ok [[2];[2];[]].
Proof.
  cbv zeta. splits; [now apply wf_cscb_ok| |now apply lower_trib_ok|now apply sorted_colsb_ok|vm_compute; reflexivity].
  intros u Hu. do 6 (destruct u as [|u]; [first [exists 0; cbn; split; [lia|intros k' Hk'; do 11 (destruct k' as [|k']; [cbn; lia|]); lia] | exists 3; cbn; split; [lia|intros k' Hk'; do 11 (destruct k' as [|k']; [cbn; lia|]); lia] | exists 5; cbn; split; [lia|intros k' Hk'; do 11 (destruct k' as [|k']; [cbn; lia|]); lia] | exists 6; cbn; split; [lia|intros k' Hk'; do 11 (destruct k' as [|k']; [cbn; lia|]); lia] | exists 8; cbn; split; [lia|intros k' Hk'; do 11 (destruct k' as [|k']; [cbn; lia|]); lia] | exists 10; cbn; split; [lia|intros k' Hk'; do 11 (destruct k' as [|k']; [cbn; lia|]); lia]]|]). lia.
Qed.
