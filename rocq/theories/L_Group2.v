(** The inverse graph used by the tree groupings. *)
From Coq Require Import ZifyBool ZifyNat.
From Verif Require Import Base Lib Lib2 Lib3 Spec SpecSolve SpecMat M_Mat L_Mat M_Group.

Lemma filter_none {A} (q : A -> bool) l : (forall x, In x l -> q x = false) -> filter q l = [].
Proof. induction l as [|x t IH]; intros H; simpl; auto. rewrite H by (left; auto). apply IH. intros y Hy. apply H. now right. Qed.

Lemma filter_one_seq (q : nat -> bool) a len k0 : a <= k0 < a + len -> q k0 = true ->
  (forall k, a <= k < a + len -> q k = true -> k = k0) -> filter q (seq a len) = [k0].
Proof.
  intros Hk Hq Hu. replace len with ((k0 - a) + S (len - S (k0 - a))) by lia.
  rewrite seq_app, filter_app. simpl. replace (a + (k0 - a)) with k0 by lia. rewrite Hq.
  rewrite filter_none, filter_none; auto; intros x Hx; apply in_seq in Hx; destruct (q x) eqn:E; auto;
    apply Hu in E; lia.
Qed.

(** rows of a lower triangular graph: the predecessors, then the node itself *)
Definition pred_rows (n : nat) (Lp Li ip is : list nat) : Prop :=
  length ip = S n /\ length is = ip.[n] /\
  (forall v, v <= n -> ip.[v] <= ip.[n]) /\
  (forall v, v < n -> ip.[v] < ip.[S v]) /\
  (forall v u, v < n -> ((exists k, ip.[v] <= k < ip.[S v] - 1 /\ is.[k] = u) <-> edge n Lp Li u v)).

Lemma inverse_DAG_wp n Lp Li (Q : _ -> Prop) :
  wf_csc n Lp Li -> length Lp = S n -> length Li = Lp.[n] -> one_diag n Lp Li -> lower_tri n Lp Li -> 0 < n ->
  (forall ip is, pred_rows n Lp Li ip is -> Q (ip, is)) -> wp (inverse_DAG n Lp Li) Q.
Proof.
  intros W HL1 HL2 HD HT Hn HQ. pose proof W as (W1 & W2 & W3 & W4 & W5). unfold inverse_DAG.
  wp1. wp1; [lia|]. wp1. unfold copy_into. cbn [new_csc cp ci cx]. replace (0 <? n) with true by lia.
  rewrite !repeat_length. replace (length Lp <=? n + 1) with true by lia.
  rewrite skipn_all2 by (rewrite repeat_length; lia). rewrite app_nil_r. cbn [wp].
  wp1. replace (length Li <=? Lp.[n]) with true by lia.
  rewrite skipn_all2 by (rewrite repeat_length; lia). rewrite app_nil_r. cbn [wp].
  wp1. apply csc_to_csr_wp; cbn [cm cn cnnz cpat cp ci cx]; auto.
  { unfold mat_ok. cbn [cm cn cnnz cpat cp ci cx]. splits; auto. intros _. rewrite repeat_length. lia. }
  intros B B1 B2 B3 B4 B5 B6 (R1 & R2 & R3 & R4 & R5).
  replace (n + 1 <=? length (cp B)) with true by lia. replace (Lp.[n] <=? length (ci B)) with true by lia.
  cbn [andb]. wp1. rewrite !firstn_all2 by lia. apply HQ.
  pose proof R1 as (V1 & V2 & V3 & V4 & V5).
  assert (HR : forall v, v < n -> exists R0, map (aget (ci B)) (seq (cp B).[v] ((cp B).[S v] - (cp B).[v])) = R0 ++ [v] /\
     forall u, In u R0 <-> edge n Lp Li u v).
  { intros v Hv. specialize (R4 v Hv). unfold col at 1 in R4. rewrite map_map in R4. cbn [fst] in R4.
    unfold row_of in R4. rewrite map_flat_map in R4.
    assert (SQ : seq 0 n = seq 0 v ++ v :: seq (S v) (n - S v)).
    { replace n with (v + S (n - S v)) at 1 by lia. now rewrite seq_app. }
    rewrite SQ, flat_map_app in R4. cbn [flat_map] in R4.
    match type of R4 with context [flat_map ?f _] => set (F := f) in R4 end. cbn beta in R4. fold (F v) in R4.
    assert (HF : forall x u, x < n -> (In u (F x) <-> u = x /\ entry Lp Li x v)).
    { intros x u Hx. unfold F. rewrite map_map, in_map_iff. cbn [fst]. split.
      - intros (e & <- & He). split; auto. apply filter_In in He. destruct He as [He1 He2]. unfold col in He1.
        apply in_map_iff in He1. destruct He1 as (k & <- & Hk). apply in_seq in Hk. cbn [fst] in He2.
        apply Nat.eqb_eq in He2. exists k. split; auto. pose proof (W3 x Hx). lia.
      - intros (-> & k & Hk & E). exists (Li.[k], (repeat dflt Lp.[n]).[k]). split; auto. apply filter_In. split.
        + apply in_map_iff. exists k. split; auto. apply in_seq. lia.
        + cbn [fst]. now apply Nat.eqb_eq. }
    assert (H1 : F v = [v]).
    { unfold F. rewrite map_map. cbn [fst]. unfold col. rewrite filter_map_comm, map_map. cbn [fst].
      destruct (HD v Hv) as (k0 & (Hk0 & E0) & HU). rewrite (filter_one_seq _ _ _ k0); auto; try lia.
      intros k Hk E. apply HU; lia. }
    assert (H2 : flat_map F (seq (S v) (n - S v)) = []).
    { destruct (flat_map F (seq (S v) (n - S v))) as [|x t] eqn:EE; auto. exfalso.
      assert (Hx : In x (flat_map F (seq (S v) (n - S v)))) by (rewrite EE; left; auto).
      apply in_flat_map in Hx. destruct Hx as (c & Hc & Hx). apply in_seq in Hc. apply HF in Hx; [|lia].
      destruct Hx as [-> He]. assert (c < v); [|lia]. apply HT. unfold edge. splits; auto; lia. }
    rewrite H1, H2, app_nil_r in R4. exists (flat_map F (seq 0 v)). split; auto.
    intros u. rewrite in_flat_map. split.
    - intros (x & Hx & Hu). apply in_seq in Hx. apply HF in Hu; [|lia]. destruct Hu as [-> He].
      unfold edge. splits; auto; lia.
    - intros He. pose proof (HT u v He). exists u. split; [apply in_seq; lia|]. apply HF; [lia|]. split; auto. apply He. }
  assert (HV : forall v, v < n -> (cp B).[v] < (cp B).[S v]).
  { intros v Hv. destruct (HR v Hv) as (R0 & E & _). apply (f_equal (@length nat)) in E.
    rewrite map_length, seq_length, app_length in E. simpl in E. lia. }
  unfold pred_rows. splits; auto; try lia.
  - intros v Hv. apply (mono_le (aget (cp B)) n); auto.
  - intros v u Hv. destruct (HR v Hv) as (R0 & E & HI). rewrite <- HI.
    pose proof (f_equal (@length nat) E) as EL. rewrite map_length, seq_length, app_length in EL. simpl in EL.
    assert (HK : forall j, j < length R0 -> (ci B).[(cp B).[v] + j] = R0.[j]).
    { intros j Hj. rewrite <- (aget_app1 R0 [v] j Hj), <- E. rewrite aget_map by (rewrite seq_length; lia).
      rewrite aget_seq by lia. auto. }
    split.
    + intros (k & Hk & <-). replace k with ((cp B).[v] + (k - (cp B).[v])) by lia. rewrite HK by lia. apply aget_In. lia.
    + intros Hu. apply In_aget in Hu. destruct Hu as (j & Hj & <-). exists ((cp B).[v] + j). split; [lia|]. auto.
Qed.
