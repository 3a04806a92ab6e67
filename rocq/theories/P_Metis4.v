(** C100, C101: what METIS is given and what is done with its answer; triangles without a diagonal. *)
From Coq Require Import ZifyBool ZifyNat.
From Verif Require Import Base Lib Lib3 Spec Check SpecMat M_Mat L_Mat L_LBC5 L_Merge M_Metis L_Metis L_Metis2 P_Metis P_Collect.

(** the permutation is METIS's answer for that graph *)
Theorem C100_perm_result : forall (V : Type) (DV : Dflt V) (node_nd : nat -> list nat -> list nat -> list nat) (A : csc V),
  (forall n p i, metis_graph n p i -> is_perm n (node_nd n p i)) ->
  mat_ok A -> cm A = cn A -> 0 < cn A ->
  (forall u v, u < cn A -> v < cn A -> entry (cp A) (ci A) u v -> entry (cp A) (ci A) v u) ->
  exists p i, general_graph A = Ok (p, i) /\ metis_graph (cn A) p i /\ metis_perm_general node_nd A = Ok (node_nd (cn A) p i).
Proof.
  intros V DV nd A HM HA Hsq Hn HS. destruct (C100_valid_iff_symmetric V DV A HA Hsq Hn) as (p & i & E & [_ G]). exists p, i.
  split; [auto|]. split; [auto|].
  specialize (HM (cn A) p i (G HS)). unfold metis_perm_general. rewrite E. cbn [bind].
  assert (L : length (nd (cn A) p i) = cn A) by (apply is_perm_Permutation in HM; apply Permutation_length in HM; now rewrite seq_length in HM).
  assert (H : wp (copy_out (cn A) (nd (cn A) p i) (repeat 0 (cn A))) (fun r => r = nd (cn A) p i)).
  { apply copy_out_wp; [lia|now rewrite repeat_length|]. rewrite <- L at 1. apply firstn_all. }
  apply wp_ok in H. destruct H as (r & -> & ->). reflexivity.
Qed.
Print Assumptions C100_perm_result.

(** the parts are METIS's answer for that graph and the weights, less the smallest *)
Theorem C100_partition_result : forall (V : Type) (DV : Dflt V) kway (A : csc V) k,
  (forall n p i w k, metis_graph n p i -> length (kway n p i w k) = n /\ forall v, In v (kway n p i w k) -> (0 <= v < Z.of_nat k)%Z) ->
  mat_ok A -> cm A = cn A -> 0 < cn A ->
  (forall u v, u < cn A -> v < cn A -> entry (cp A) (ci A) u v -> entry (cp A) (ci A) v u) -> k <= cn A + 1 ->
  exists p i part, general_graph A = Ok (p, i) /\ metis_graph (cn A) p i /\ metis_partition_general kway A k = Ok part /\
    let w := map (fun u => 1 + (cp A).[S u] - (cp A).[u]) (seq 0 (cn A)) in
    let z := kway (cn A) p i (Some w) k in
    length part = cn A /\ (forall v, In v part -> (0 <= v < Z.of_nat k)%Z) /\ In 0%Z part /\
    (exists d, forall u, u < cn A -> part.[u] = (z.[u] - d)%Z).
Proof.
  intros V DV kway A k HM HA Hsq Hn HS Hk. destruct (C100_valid_iff_symmetric V DV A HA Hsq Hn) as (p & i & E & [_ G]). specialize (G HS).
  set (kw := fun n' p' i' w k' => if n' =? cn A then kway (cn A) p i w k' else kway n' p' i' w k').
  destruct (C100_partition_general V DV kw A k) as (p' & i' & part & _ & E2 & H); auto.
  { intros n' p' i' w k' G'. unfold kw. destruct (Nat.eqb_spec n' (cn A)) as [->|]; auto. }
  exists p, i, part. split; [auto|]. split; [auto|].
  assert (K : kw (cn A) = fun _ _ => kway (cn A) p i) by (unfold kw; now rewrite Nat.eqb_refl).
  unfold metis_partition_general in *. rewrite E in *. cbn [bind] in *. rewrite K in E2, H. split; [exact E2|exact H].
Qed.
Print Assumptions C100_partition_result.

Lemma oo_cols {S} n Ap (J : nat -> S -> Prop) (body : nat -> nat -> S -> res S) s (Q : S -> Prop) :
  n < length Ap -> Ap.[0] = 0 -> (forall i, i < n -> Ap.[i] <= Ap.[Datatypes.S i]) -> J 0 s ->
  (forall i j s, i < n -> Ap.[i] <= j < Ap.[Datatypes.S i] -> J j s -> oob_or (body i j s) (J (Datatypes.S j))) ->
  (forall s, J Ap.[n] s -> Q s) ->
  oob_or (for_ 0 n (fun i s => a <- rd Ap i ;; b <- rd Ap (Datatypes.S i) ;; for_ a b (body i) s) s) Q.
Proof.
  intros HL H0 HM HJ HB HQ. apply (oo_for (fun i s => J Ap.[i] s)); [lia|now rewrite H0| |auto].
  intros i s' Hi HI. oo1. oo1. intros _. oo1. oo1. intros _. apply (oo_for J); [apply HM; lia|auto| |auto].
  intros j s2 Hj HI2. apply HB; auto; lia.
Qed.

Section NoDiag.
Variables (n : nat) (Ap Ai : list nat).
Hypothesis W : wf_csc n Ap Ai.
Hypothesis ND : forall u, u < n -> ~ entry Ap Ai u u.
Hypothesis Hn : 0 < n.
Local Notation c j := (col_of n Ap j).

Lemma off j : j < Ap.[n] -> (Ai.[j] =? c j) = false.
Proof.
  intros Hj. pose proof W as (W1 & W2 & W3 & W4 & W5). destruct (col_of_in n Ap j W2 W3 Hj) as [Hc Hin].
  destruct (Nat.eqb_spec Ai.[j] (c j)) as [E|]; [|auto]. exfalso. apply (ND (c j) Hc). exists j. auto.
Qed.

Lemma no_diag_oo : n <= 2 * Ap.[n] -> oob_or (symmetric_graph n Ap.[n] Ap Ai) (fun _ => False).
Proof.
  intros Hnn. pose proof W as (W1 & W2 & W3 & W4 & W5). unfold symmetric_graph. replace (2 * Ap.[n] <? n) with false by lia.
  set (cap := 2 * Ap.[n] - n). set (len := fun e x => length (adjl n Ap Ai e x)).
  assert (LS : forall j x, j < Ap.[n] -> len (S j) x = len j x + (b2n (c j =? x) + b2n (Ai.[j] =? x))).
  { intros j x Hj. unfold len. rewrite adjl_S, app_length. f_equal. unfold adj1. rewrite off by auto. destruct (c j =? x), (Ai.[j] =? x); reflexivity. }
  oo1. apply (oo_cols n Ap (fun j ind => length ind = n /\ forall x, x < n -> ind.[x] = len j x)); auto; try lia.
  { split; [now rewrite repeat_length|]. intros x Hx. now rewrite aget_repeat. }
  { intros i j ind Hi Hj [I1 I2].
    assert (Hjn : j < Ap.[n]) by (assert (Ap.[S i] <= Ap.[n]) by (apply (mono_le (aget Ap) n); auto; lia); lia).
    assert (Hc : c j = i) by (apply in_col_col_of; auto; split; auto). pose proof (off j Hjn) as Eo. rewrite Hc in Eo.
    oo1. oo1. intros _. oo1. oo1. intros _. oo1. oo1. intros H1. rewrite Eo. oo1. oo1. intros _. oo1. rewrite !upd_length. intros H2. split; [auto|].
    intros x Hx. rewrite LS, Hc by auto. rewrite aget_upd by (rewrite upd_length; lia). rewrite aget_upd_ne by lia. rewrite aget_upd by lia.
    rewrite (Nat.eqb_sym i x), (Nat.eqb_sym Ai.[j] x). rewrite !I2 by lia.
    destruct (Nat.eqb_spec x Ai.[j]) as [E1|E1], (Nat.eqb_spec x i) as [E2|E2]; try (rewrite <- E1); try (rewrite <- E2); cbn [b2n]; lia. }
  intros ind [C1 C2]. oo1. oo1. rewrite repeat_length. intros _. oo1.
  apply (oo_for (fun i p => length p = n + 1 /\ forall x, x <= i -> p.[x] = sum_r 0 x (len Ap.[n]))); [lia| | |].
  { rewrite upd_length, repeat_length. split; [auto|]. intros x Hx. replace x with 0 by lia. rewrite aget_upd_eq by (rewrite repeat_length; lia). auto. }
  { intros i p Hi [I1 I2]. oo1. oo1. intros _. oo1. oo1. intros _. oo1. intros _. rewrite upd_length. split; [auto|].
    intros x Hx. rewrite aget_upd by lia. destruct (Nat.eqb_spec x (S i)) as [->|]; [|apply I2; lia]. rewrite sum_r_S by lia. rewrite I2, C2 by lia. reflexivity. }
  intros p [P1 P2]. oo1.
  apply (oo_for (fun i d => length d = n /\ forall x, x < i -> d.[x] = 0)); [lia|split; [auto|intros; lia]| |].
  { intros i d Hi [I1 I2]. oo1. intros _. rewrite upd_length. split; auto. intros x Hx. rewrite aget_upd by lia. destruct (Nat.eqb_spec x i); [auto|apply I2; lia]. }
  intros d [D1 D2]. oo1.
  apply (oo_cols n Ap (fun j s => let '(ind, fi) := s in length ind = n /\ length fi = cap /\ forall x, x < n -> ind.[x] = len j x /\ (0 < len j x -> p.[x] + len j x <= cap))); auto; try lia.
  { rewrite repeat_length. splits; auto. intros x Hx. rewrite D2 by auto. split; [reflexivity|]. unfold len. cbn. lia. }
  { intros i j [d1 fi] Hi Hj (I1 & I2 & I3).
    assert (Hjn : j < Ap.[n]) by (assert (Ap.[S i] <= Ap.[n]) by (apply (mono_le (aget Ap) n); auto; lia); lia).
    assert (Hc : c j = i) by (apply in_col_col_of; auto; split; auto). pose proof (off j Hjn) as Eo. rewrite Hc in Eo. specialize (W5 j Hjn).
    assert (PU : forall x y ind fi0, x < n -> length ind = n -> length fi0 = cap -> oob_or (graph_push p x y (ind, fi0)) (fun s => let '(ind', fi') := s in
       length fi' = cap /\ ind' = upd ind x (ind.[x] + 1) /\ p.[x] + ind.[x] < cap)).
    { intros x y ind0 fi0 Hx Hl Hf. unfold graph_push. oo1. oo1. intros _. oo1. oo1. intros _. oo1. oo1. intros H1. oo1. oo1. intros H2. oo1. rewrite upd_length. splits; auto. lia. }
    oo1. oo1. intros _. rewrite Eo. oo1. eapply oo_mono; [apply PU; auto|]. intros [d2 f2] (Q1 & -> & Q3).
    eapply oo_mono; [apply PU; auto; now rewrite upd_length|]. intros [d3 f3] (R1 & -> & R3). rewrite !upd_length. splits; auto.
    rewrite aget_upd_ne in * by lia. intros x Hx. rewrite LS, Hc by auto. rewrite aget_upd by (rewrite upd_length; lia). rewrite aget_upd by lia.
    rewrite (Nat.eqb_sym i x), (Nat.eqb_sym Ai.[j] x). destruct (I3 x Hx) as [X1 X2]. destruct (I3 i Hi) as [Y1 Y2]. destruct (I3 Ai.[j] W5) as [Z1 Z2].
    destruct (Nat.eqb_spec x Ai.[j]) as [E1|E1], (Nat.eqb_spec x i) as [E2|E2]; subst; cbn [b2n]; split; try lia. }
  intros [d1 fi] (I1 & I2 & I3). exfalso.
  assert (TOT : sum_r 0 n (len Ap.[n]) = 2 * Ap.[n]).
  { pose proof (sum_pairs n Ap Ai W Ap.[n] (le_n _)) as H. rewrite (sum_r_ext 0 n (fun x => dg n Ap Ai Ap.[n] x) (fun _ => 0)) in H.
    - rewrite sum_r_0 in H. change (fun x => length (adjl n Ap Ai Ap.[n] x)) with (len Ap.[n]) in H. lia.
    - intros x Hx. unfold dg. rewrite (cnt_ext 0 Ap.[n] _ (fun _ => false)); [|intros j Hj; rewrite off by lia; reflexivity].
      unfold cnt. apply sum_r_0. }
  assert (G : forall m, m <= n -> sum_r 0 m (len Ap.[n]) <= cap).
  { induction m as [|m IH]; intros Hm; [unfold sum_r; cbn; lia|]. rewrite sum_r_S by lia. destruct (I3 m ltac:(lia)) as [_ X]. rewrite P2 in X by lia.
    destruct (len Ap.[n] m) eqn:E; [rewrite Nat.add_0_r; apply IH; lia|apply X; lia]. }
  specialize (G n (le_n _)). unfold cap in G. lia.
Qed.
End NoDiag.

(** No diagonal entry: the pointer array counts every neighbour, the array of neighbours is n cells too short *)
Theorem C101_no_diagonal : forall n Ap Ai, wf_csc n Ap Ai -> (forall u, u < n -> ~ entry Ap Ai u u) -> 0 < n -> n <= 2 * Ap.[n] ->
  symmetric_graph n Ap.[n] Ap Ai = Err OOB.
Proof.
  intros n Ap Ai W ND Hn H. pose proof (no_diag_oo n Ap Ai W ND Hn H) as X. destruct (symmetric_graph n Ap.[n] Ap Ai); cbn [oob_or] in X; [easy|now subst].
Qed.
Print Assumptions C101_no_diagonal.

Example C101_no_diagonal_case : wf_csc 4 [0;2;3;4;4] [1;3;2;3] /\ (forall u, u < 4 -> ~ entry [0;2;3;4;4] [1;3;2;3] u u) /\ 4 <= 2 * [0;2;3;4;4].[4].
Proof.
  split; [now apply wf_cscb_ok|]. split; [|cbn; lia]. intros u Hu (k & Hk & E). destruct u as [|[|[|[|u]]]]; [| | | |lia]; cbn in Hk.
  - assert (k = 0 \/ k = 1) as [->| ->] by lia; discriminate.
  - replace k with 2 in E by lia. discriminate.
  - replace k with 3 in E by lia. discriminate.
  - lia.
Qed.
