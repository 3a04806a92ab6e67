(** Proofs about computePostOrderAndGroup. *)
From Verif Require Import Base Lib Lib2 Spec SpecSolve SpecGroup M_PostOrder L_PostOrder M_PostGroup.
From Coq Require Import ZifyBool ZifyNat.

Lemma upd_app_last {A} (l : list A) x y : upd (l ++ [x]) (length l) y = l ++ [y].
Proof. induction l as [|a l IH]; cbn; auto. now rewrite IH. Qed.

Section PG.
Variables (n : nat) (Lp Li : list nat).
Hypothesis W : wf_csc n Lp Li.
Hypothesis DF : diag_first n Lp Li.
Notation E := (edge n Lp Li).
(** no column holds an entry twice *)
Hypothesis ND : forall u k k', u < n -> Lp.[u] <= k < Lp.[S u] -> Lp.[u] <= k' < Lp.[S u] -> Li.[k] = Li.[k'] -> k = k'.

(** the in-degree counts edges, as far as one and two are concerned *)
Lemma po_indegree_wp2 (Q : list nat -> Prop) :
  (forall deg, length deg = n -> (forall v, v < n -> (1 <= deg.[v] <-> exists u, E u v)) ->
     (forall v, v < n -> (2 <= deg.[v] <-> exists u u', u <> u' /\ E u v /\ E u' v)) -> Q deg) ->
  wp (po_indegree n Lp Li) Q.
Proof.
  intros HQ. unfold po_indegree. pose proof (wf_Lp_len n Lp Li W).
  set (P := fun i c k => exists u, Lp.[u] < k < Lp.[S u] /\ (u < i \/ (u = i /\ k < c))).
  set (I := fun i c deg => length deg = n /\
      (forall v, v < n -> (1 <= deg.[v] <-> exists k, P i c k /\ Li.[k] = v)) /\
      (forall v, v < n -> (2 <= deg.[v] <-> exists k k', k < k' /\ P i c k /\ P i c k' /\ Li.[k] = v /\ Li.[k'] = v))).
  assert (HP : forall i c k, P i c k -> i < n -> c <= Lp.[S i] -> k < Lp.[S i]).
  { intros i c k (u & Hk & Hu) Hi Hc. destruct Hu as [Hu|[-> Hu]]; [|lia].
    pose proof (wf_Lp_mono n Lp Li W (S u) i ltac:(lia) ltac:(lia)). pose proof (wf_Lp_mono n Lp Li W i (S i) ltac:(lia) ltac:(lia)). lia. }
  assert (EXT : forall i c i' c' deg, (forall k, P i c k <-> P i' c' k) -> I i c deg -> I i' c' deg).
  { intros i c i' c' deg HE (I1 & I2 & I3). split; auto. split; intros v Hv.
    - rewrite I2 by auto. split; intros (k & A & B); exists k; split; auto; now apply HE.
    - rewrite I3 by auto. split; intros (k & k' & A & B & C & D); exists k, k'; repeat split; auto; try apply HE; tauto. }
  apply (wp_for (fun i deg => I i 0 deg)); [lia| | |].
  - split; [apply repeat_length|]. split; intros v Hv; rewrite aget_repeat by auto; (split; [lia|]).
    + intros (k & (u & Hk & [Hu|Hu]) & _); lia.
    + intros (k & k' & _ & (u & Hk & [Hu|Hu]) & _); lia.
  - intros i deg Hi HI. destruct (DF i ltac:(lia)) as (D1 & D2 & D3). wp1. wp1; [lia|]. wp1. wp1; [lia|].
    apply (wp_for (fun c deg => I i c deg)); [lia| | |].
    + revert HI. apply EXT. intros k. split; intros (u & Hk & Hu); exists u; split; auto; destruct Hu as [|[-> Hu]]; auto; lia.
    + intros c deg2 Hc (I1 & I2 & I3). pose proof (wf_col_lt n Lp Li W i c ltac:(lia) ltac:(lia)) as [X1 X2].
      pose proof W as (_ & _ & _ & _ & W5). pose proof (W5 c X2) as Hv.
      assert (HS : forall k, P i (S c) k <-> P i c k \/ k = c).
      { intros k. split.
        - intros (u & Hk & Hu). destruct (Nat.eq_dec k c) as [->|]; auto. left. exists u. split; auto.
          destruct Hu as [|[-> Hu]]; auto. right. split; auto. lia.
        - intros [(u & Hk & Hu)| ->].
          + exists u. split; auto. destruct Hu as [|[-> Hu]]; auto. 
          + exists i. split; auto; lia. }
      assert (HPc : forall k, P i c k -> k < c).
      { intros k (u & Hk & [Hu|[_ Hu]]); auto.
        pose proof (wf_Lp_mono n Lp Li W (S u) i ltac:(lia) ltac:(lia)). lia. }
      wp1. wp1; [lia|]. wp1. wp1; [lia|]. wp1; [lia|]. split; [now rewrite upd_length|].
      split; intros v Hv'; rewrite aget_upd by lia; destruct (Nat.eqb_spec v Li.[c]) as [->|Hne].
      * split; [intros _; exists c; split; auto; apply HS; auto|lia].
      * rewrite I2 by auto. split; intros (k & A & B); exists k; split; auto.
        -- apply HS. auto.
        -- apply HS in A. destruct A as [| ->]; congruence.
      * assert (EQ : 2 <= S deg2.[Li.[c]] <-> 1 <= deg2.[Li.[c]]) by lia. rewrite EQ, I2 by auto. split.
        -- intros (k & A & B). exists k, c. split; [auto|]. rewrite !HS. auto.
        -- intros (k & k' & A & B & C & D & F). exists k. split; auto. apply HS in B. apply HS in C.
           destruct B as [|B]; auto. destruct C as [C|C]; [|lia]. pose proof (HPc _ C). lia.
      * rewrite I3 by auto. split; intros (k & k' & A & B & C & D & F); exists k, k'; rewrite ?HS in *; repeat split; auto.
        -- destruct B as [| ->]; congruence.
        -- destruct C as [| ->]; congruence.
    + intros deg2. apply EXT. intros k. split; intros (u & Hk & Hu); exists u; split; auto.
      * destruct Hu as [|[-> Hu]]; auto; lia.
      * destruct Hu as [Hu|]; [|lia]. destruct (Nat.eq_dec u i) as [->|]; [right|left]; lia.
  - intros deg (I1 & I2 & I3).
    assert (HE : forall v, (exists k, P n 0 k /\ Li.[k] = v) <-> exists u, E u v).
    { intros v. split.
      - intros (k & (u & Hk & [Hu|Hu]) & <-); [|lia]. exists u. apply child_edge; auto.
      - intros (u & Hu). destruct (edge_child n Lp Li DF u v Hu) as (Hu' & k & Hk & <-). exists k. split; auto. exists u. auto. }
    apply HQ; auto.
    + intros v Hv. rewrite I2 by auto. apply HE.
    + intros v Hv. rewrite I3 by auto. split.
      * intros (k & k' & Hlt & (u & Hk & [Hu|Hu]) & (u' & Hk' & [Hu'|Hu']) & E1 & E2); try lia. exists u, u'. split; [|split].
        -- intros <-. assert (k = k') by (apply (ND u); auto; try lia; congruence). lia.
        -- rewrite <- E1. apply child_edge; auto.
        -- rewrite <- E2. apply child_edge; auto.
      * intros (u & u' & Hne & Hu & Hu').
        destruct (edge_child n Lp Li DF u v Hu) as (A & k & Hk & E1). destruct (edge_child n Lp Li DF u' v Hu') as (A' & k' & Hk' & E2).
        assert (P n 0 k) by (exists u; auto). assert (P n 0 k') by (exists u'; auto).
        assert (k <> k'). { intros <-. apply Hne. apply (bucket_unique (aget Lp) n u u' k); auto; try lia. apply W. }
        destruct (le_lt_dec k k'); [exists k, k'|exists k', k]; repeat split; auto; lia.
Qed.

(** * The groups *)
Variables (deg po : list nat).
Hypothesis DL : length deg = n.
Hypothesis D1 : forall v, v < n -> (1 <= deg.[v] <-> exists u, E u v).
Hypothesis D2 : forall v, v < n -> (2 <= deg.[v] <-> exists u u', u <> u' /\ E u v /\ E u' v).
Hypothesis PP : is_perm n po.
Hypothesis PT : forall i j, i < n -> j < n -> E po.[i] po.[j] -> i < j.

(** the edge from the node at position [k] to the next one is the only one out of the first and
    the only one into the second *)
Definition joined (k : nat) : Prop :=
  S k < n /\ E po.[k] po.[S k] /\ (forall w, E po.[k] w -> w = po.[S k]) /\ (forall u, E u po.[S k] -> u = po.[k]).

Lemma po_lt k : k < n -> po.[k] < n.
Proof. intros Hk. destruct PP as (P1 & P2 & P3). apply P3, aget_In. lia. Qed.

Lemma po_pos v : v < n -> exists k, k < n /\ po.[k] = v.
Proof. intros Hv. destruct PP as (P1 & P2 & P3). apply P3, In_aget in Hv. rewrite P1 in Hv. exact Hv. Qed.

Lemma po_inj i j : i < n -> j < n -> po.[i] = po.[j] -> i = j.
Proof. destruct PP as (P1 & P2 & P3). intros Hi Hj. apply NoDup_aget; auto; lia. Qed.

Lemma edge_lt u v : E u v -> v < n.
Proof.
  intros Hu. destruct (edge_child n Lp Li DF u v Hu) as (A & k & Hk & <-). apply W.
  apply (wf_col_lt n Lp Li W u k A). lia.
Qed.

Lemma one_out u k : u < n -> Lp.[u] < k < Lp.[S u] ->
  (Lp.[S u] = S (S Lp.[u]) <-> forall w, E u w -> w = Li.[k]).
Proof.
  intros Hu Hk. split.
  - intros HS w Hw. destruct (edge_child n Lp Li DF u w Hw) as (_ & k' & Hk' & <-). f_equal. lia.
  - intros HA. destruct (Nat.eq_dec Lp.[S u] (S (S Lp.[u]))) as [|Hne]; auto.
    exfalso. assert (exists k', Lp.[u] < k' < Lp.[S u] /\ k' <> k) as (k' & Hk' & Hd).
    { destruct (Nat.eq_dec k (S Lp.[u])); [exists (S (S Lp.[u]))|exists (S Lp.[u])]; lia. }
    apply Hd. apply (ND u); auto; try lia. apply HA. apply child_edge; auto.
Qed.

Definition ginv (i : nat) (st : list nat * list nat * nat * nat) : Prop :=
  let '(gp, inv, ng, cnt) := st in
  cnt = i /\ length gp = S ng /\ gp.[0] = 0 /\ (forall g, g < ng -> gp.[g] < gp.[S g]) /\ gp.[ng] <= i /\
  length inv = n /\ (forall g k, g < ng -> gp.[g] <= k < gp.[S g] -> inv.[po.[k]] = g) /\
  (forall k, gp.[ng] <= k < i -> inv.[po.[k]] = ng) /\
  (forall g k, g < ng -> gp.[g] <= k -> S k < gp.[S g] -> joined k) /\
  (forall k, gp.[ng] <= k < i -> joined k) /\
  (forall g, g < ng -> ~ joined (gp.[S g] - 1)).

Lemma pg_node_wp junk i st : i < n -> ginv i st ->
  wp (pg_node n Lp Li false junk deg po i st) (ginv (S i)).
Proof.
  destruct st as [[[gp inv] ng] cnt]. intros Hi (-> & I2 & I3 & I4 & I5 & I6 & I7 & I8 & I9 & I10 & I11).
  pose proof PP as (P1 & P2 & P3). pose proof (po_lt i Hi) as Hpi. destruct (DF _ Hpi) as (F1 & F2 & F3).
  pose proof (wf_Lp_len n Lp Li W). unfold pg_node.
  assert (HM : forall g, g <= ng -> gp.[g] <= gp.[ng]).
  { intros g Hg. apply (mono_le (aget gp) ng); auto. intros l Hl. pose proof (I4 l Hl). lia. }
  assert (GO : forall b : bool, (b = true <-> joined i) -> wp (if b then Ok (gp, upd inv po.[i] ng, ng, S i) else Ok (gp ++ [S i], upd inv po.[i] ng, S ng, S i)) (ginv (S i))).
  { intros b HJ.
    assert (HU : forall k, k < n -> k <> i -> (upd inv po.[i] ng).[po.[k]] = inv.[po.[k]]).
    { intros k Hk Hne. rewrite aget_upd by lia. destruct (Nat.eqb_spec po.[k] po.[i]) as [Eq|]; auto. apply po_inj in Eq; auto; lia. }
    assert (HUi : (upd inv po.[i] ng).[po.[i]] = ng) by (rewrite aget_upd by lia; now rewrite Nat.eqb_refl).
    destruct b; wp1; unfold ginv.
    - split; [auto|]. split; [auto|]. split; [auto|]. split; [auto|]. split; [lia|]. split; [now rewrite upd_length|].
      split; [|split; [|split; [auto|split; [|auto]]]].
      + intros g k Hg Hk. pose proof (HM (S g) ltac:(lia)). rewrite HU by lia. auto.
      + intros k Hk. destruct (Nat.eq_dec k i) as [->|]; auto. rewrite HU by lia. apply I8. lia.
      + intros k Hk. destruct (Nat.eq_dec k i) as [->|]; [now apply HJ|]. apply I10. lia.
    - assert (G1 : forall g, g <= ng -> (gp ++ [S i]).[g] = gp.[g]) by (intros; rewrite aget_app1 by lia; auto).
      assert (G2 : (gp ++ [S i]).[S ng] = S i) by (rewrite <- I2; apply aget_app_last).
      split; [auto|]. split; [rewrite app_length; cbn [length]; lia|]. split; [rewrite G1 by lia; auto|].
      split; [|split; [lia|split; [now rewrite upd_length|]]].
      { intros g Hg. destruct (Nat.eq_dec g ng) as [->|]; [rewrite G2, G1 by lia; lia|]. rewrite !G1 by lia. apply I4. lia. }
      split; [|split; [intros; lia|split; [|split; [intros; lia|]]]].
      + intros g k Hg Hk. destruct (Nat.eq_dec g ng) as [->|].
        * rewrite G2, G1 in Hk by lia. destruct (Nat.eq_dec k i) as [->|]; auto. rewrite HU by lia. apply I8. lia.
        * rewrite !G1 in Hk by lia. pose proof (HM (S g) ltac:(lia)). rewrite HU by lia. apply I7; lia.
      + intros g k Hg Hk Hk2. destruct (Nat.eq_dec g ng) as [->|].
        * rewrite G2 in Hk2. rewrite G1 in Hk by lia. apply I10. lia.
        * rewrite G1 in Hk, Hk2 by lia. apply (I9 g); lia.
      + intros g Hg. destruct (Nat.eq_dec g ng) as [->|].
        * rewrite G2. replace (S i - 1) with i by lia. intros HA. apply HJ in HA. discriminate.
        * rewrite G1 by lia. apply I11. lia. }
  wp1. wp1; [lia|]. destruct (Nat.ltb_spec (S i) n) as [HS|HS].
  - pose proof (po_lt (S i) HS) as Hps. wp1. wp1. wp1; [lia|]. wp1. wp1; [lia|]. wp1. unfold pg_child. wp1. wp1; [lia|].
    assert (GO2 : forall c, (S Lp.[po.[i]] < Lp.[S po.[i]] -> c = Li.[S Lp.[po.[i]]]) ->
      wp ('(next, in_edges, child) <- Ok (po.[S i], deg.[po.[S i]], c) ;;
          b <- rd Lp (S po.[i]) ;; a <- rd Lp po.[i] ;;
          inv <- wr inv po.[i] ng ;;
          if (Z.of_nat in_edges =? Z.of_nat b - Z.of_nat a - 1)%Z && (in_edges =? 1) && (child =? next)
          then Ok (gp, inv, ng, S i) else Ok (gp ++ [S i], inv, S ng, S i)) (ginv (S i))).
    { intros c Hc. wp1. wp1. wp1. wp1; [lia|]. wp1. wp1; [lia|]. wp1. wp1; [lia|]. apply GO. split.
      - intros HB. apply andb_prop in HB. destruct HB as [HB B3]. apply andb_prop in HB. destruct HB as [B1 B2].
        apply Z.eqb_eq in B1. apply Nat.eqb_eq in B2. apply Nat.eqb_eq in B3.
        assert (HL : Lp.[S po.[i]] = S (S Lp.[po.[i]])) by lia. rewrite Hc in B3 by lia.
        assert (EE : E po.[i] po.[S i]) by (rewrite <- B3; apply child_edge; auto; lia).
        split; auto. split; auto. split.
        + rewrite <- B3. apply (one_out po.[i] (S Lp.[po.[i]])); auto. lia.
        + intros u Hu. destruct (Nat.eq_dec u po.[i]) as [|Hne]; auto. exfalso.
          assert (2 <= deg.[po.[S i]]) by (apply D2; auto; exists u, po.[i]; auto). lia.
      - intros (_ & J1 & J2 & J3). destruct (edge_child n Lp Li DF _ _ J1) as (_ & k & Hk & Ek).
        assert (HL : Lp.[S po.[i]] = S (S Lp.[po.[i]])) by (apply (one_out po.[i] k); auto; rewrite Ek; auto).
        assert (k = S Lp.[po.[i]]) by lia. subst k.
        assert (1 <= deg.[po.[S i]]) by (apply D1; eauto).
        assert (~ 2 <= deg.[po.[S i]]).
        { intros H2. apply D2 in H2; auto. destruct H2 as (u & u' & Hne & Hu & Hu'). apply Hne. rewrite (J3 u Hu), (J3 u' Hu'). auto. }
        rewrite Hc by lia. rewrite Ek. rewrite Nat.eqb_refl. lia. }
    destruct ((length Li <=? S Lp.[po.[i]]) && negb false) eqn:EB.
    + wp1. apply GO2. intros HC. pose proof (wf_col_lt n Lp Li W po.[i] (S Lp.[po.[i]]) Hpi ltac:(lia)). lia.
    + wp1; [lia|]. apply GO2. auto.
  - wp1. wp1. wp1. wp1; [lia|]. wp1. wp1; [lia|]. wp1. wp1; [lia|]. apply GO. split.
    + intros HB. exfalso.
      assert (HC : Lp.[S po.[i]] = S (S Lp.[po.[i]])) by lia.
      pose proof (child_edge n Lp Li DF po.[i] (S Lp.[po.[i]]) Hpi ltac:(lia)) as EE.
      destruct (po_pos _ (edge_lt _ _ EE)) as (j & Hj & Ej). rewrite <- Ej in EE. apply PT in EE; lia.
    + intros (J & _). lia.
Qed.

Definition groups_ok (gp inv : list nat) (ng : nat) : Prop :=
  length gp = S ng /\ gp.[0] = 0 /\ (forall g, g < ng -> gp.[g] < gp.[S g]) /\ gp.[ng] = n /\
  length inv = n /\ (forall g k, g < ng -> gp.[g] <= k < gp.[S g] -> inv.[po.[k]] = g) /\
  (forall g k, g < ng -> gp.[g] <= k -> S k < gp.[S g] -> joined k) /\
  (forall g, g < ng -> ~ joined (gp.[S g] - 1)).

Lemma pg_groups_wp junk (Q : list nat * list nat * nat * nat -> Prop) :
  (forall gp inv ng, groups_ok gp inv ng -> Q (gp, inv, ng, n)) -> wp (pg_groups n Lp Li false junk deg po) Q.
Proof.
  intros HQ. unfold pg_groups. apply (wp_for ginv); [lia| | |].
  - unfold ginv. split; auto. split; auto. split; auto. split; [intros; lia|]. split; [cbn; lia|]. split; [apply repeat_length|].
    repeat split; intros; try lia; cbn in *; lia.
  - intros i st Hi HI. apply pg_node_wp; auto. lia.
  - intros [[[gp inv] ng] cnt] (-> & I2 & I3 & I4 & I5 & I6 & I7 & I8 & I9 & I10 & I11). apply HQ. unfold groups_ok.
    assert (HN : gp.[ng] = n).
    { destruct (Nat.eq_dec gp.[ng] n); auto. destruct (I10 (n - 1) ltac:(lia)) as (J & _). lia. }
    splits; auto.
Qed.

Section Groups.
Variables (gp inv : list nat) (ng : nat).
Hypothesis GO : groups_ok gp inv ng.

Definition gcol (g : nat) : list nat :=
  map (aget inv) (slice Li Lp.[po.[gp.[S g] - 1]] Lp.[S po.[gp.[S g] - 1]]).

Lemma gp_le g : g <= ng -> gp.[g] <= n.
Proof.
  intros Hg. destruct GO as (G1 & G2 & G3 & <- & _). apply (mono_le (aget gp) ng); auto. intros l Hl. pose proof (G3 l Hl). lia.
Qed.

Lemma pg_dag_wp (Q : list nat * list nat -> Prop) :
  (forall dp ds, length dp = S ng -> dp.[0] = 0 -> dp.[ng] = length ds ->
     (forall g, g < ng -> dp.[g] <= dp.[S g] /\ slice ds dp.[g] dp.[S g] = gcol g) -> Q (dp, ds)) ->
  wp (pg_dag Lp Li po gp inv ng) Q.
Proof.
  intros HQ. pose proof GO as (G1 & G2 & G3 & G4 & G5 & G6 & _). pose proof (wf_Lp_len n Lp Li W). pose proof PP as (P1 & _).
  pose proof W as (_ & _ & W3 & W4 & W5). unfold pg_dag.
  apply (wp_for (fun g '(dp, ds) => length dp = S g /\ dp.[0] = 0 /\ dp.[g] = length ds /\
     forall g', g' < g -> dp.[g'] <= dp.[S g'] /\ slice ds dp.[g'] dp.[S g'] = gcol g')); [lia| | |].
  - splits; auto. intros; lia.
  - intros g [dp ds] Hg (I1 & I2 & I3 & I4). pose proof (G3 g ltac:(lia)). pose proof (gp_le (S g) ltac:(lia)).
    wp1. wp1; [lia|]. wp1. wp1; [lia|]. pose proof (po_lt (gp.[S g] - 1) ltac:(lia)) as Hv. set (v := po.[gp.[S g] - 1]) in *.
    pose proof (W3 v Hv). pose proof (wf_Lp_mono n Lp Li W (S v) n ltac:(lia) ltac:(lia)).
    wp1. eapply wp_mono; [apply wp_ok; exists dp.[g]; split; [|exact (eq_refl dp.[g])]|].
    { rewrite (back_ok dp) by lia. f_equal. f_equal. lia. }
    intros t <-. cbv beta. cbv zeta. wp1. wp1; [lia|]. wp1. wp1; [lia|].
    assert (HD : forall m, forall g', g' <= g -> (dp ++ [m]).[g'] = dp.[g']) by (intros; rewrite aget_app1 by lia; auto).
    assert (HD2 : forall m, (dp ++ [m]).[S g] = m) by (intros; rewrite <- I1; apply aget_app_last).
    apply (wp_for (fun c '(dp', ds') => dp' = dp ++ [length ds'] /\ ds' = ds ++ map (aget inv) (slice Li Lp.[v] c))); [lia| | |].
    + rewrite slice_nil by lia. cbn [map]. rewrite app_nil_r. split; auto. now rewrite I3.
    + intros c [dp' ds'] Hc [-> ->]. pose proof (W5 c ltac:(lia)).
      wp1. wp1; [lia|]. wp1. wp1; [lia|]. wp1.
      rewrite back_ok by (rewrite app_length; cbn [length]; lia). wp1.
      set (m := length (ds ++ map (aget inv) (slice Li Lp.[v] c))).
      replace (length (dp ++ [m]) - 1) with (length dp) by (rewrite app_length; cbn [length]; lia). rewrite aget_app_last.
      wp1. wp1; [rewrite app_length; cbn [length]; lia|]. wp1.
      assert (EE : map (aget inv) (slice Li Lp.[v] (S c)) = map (aget inv) (slice Li Lp.[v] c) ++ [inv.[Li.[c]]]).
      { rewrite (slice_app Li Lp.[v] c (S c)) by lia. rewrite map_app. f_equal. rewrite slice_cons by lia. rewrite slice_nil by lia. auto. }
      split.
      * rewrite upd_app_last. f_equal. f_equal. rewrite app_length. cbn [length]. fold m. lia.
      * rewrite EE, app_assoc. auto.
    + intros [dp' ds'] [-> ->]. rewrite !app_length, HD2. cbn [length]. split; [lia|]. split; [rewrite HD by lia; auto|]. split; auto.
      intros g' Hg'. assert (HB : forall a, a <= g -> dp.[a] <= length ds).
      { intros a Ha. rewrite <- I3. apply (mono_le (aget dp) g); auto. intros l Hl. now apply I4. }
      destruct (Nat.eq_dec g' g) as [->|].
      * rewrite HD2, HD by lia. split; [lia|]. rewrite I3.
        unfold gcol. fold v. set (m := map (aget inv) (slice Li Lp.[v] Lp.[S v])). unfold slice.
        rewrite skipn_app, (skipn_all2 ds) by lia. rewrite Nat.sub_diag. cbn [skipn app]. apply firstn_all2. lia.
      * rewrite !HD by lia. destruct (I4 g' ltac:(lia)) as [A <-]. split; auto.
        pose proof (HB (S g') ltac:(lia)). unfold slice. rewrite skipn_app, firstn_app, skipn_length.
        replace (dp.[S g'] - dp.[g'] - (length ds - dp.[g'])) with 0 by lia. cbn [firstn]. now rewrite app_nil_r.
  - intros [dp ds] (I1 & I2 & I3 & I4). apply HQ; auto.
Qed.

Lemma inv_group v : v < n -> exists g k, g < ng /\ gp.[g] <= k < gp.[S g] /\ po.[k] = v /\ inv.[v] = g.
Proof.
  intros Hv. pose proof GO as (G1 & G2 & G3 & G4 & G5 & G6 & _). destruct (po_pos v Hv) as (k & Hk & <-).
  destruct (bucket_exists (aget gp) ng k ltac:(lia) ltac:(lia)) as (g & Hg & Hk'). exists g, k. repeat (split; [solve [auto]|]). apply G6; auto.
Qed.

Lemma in_group g v : g < ng -> (in_level gp po g v <-> v < n /\ inv.[v] = g).
Proof.
  intros Hg. pose proof GO as (G1 & G2 & G3 & G4 & G5 & G6 & _). split.
  - intros (k & Hk & <-). pose proof (gp_le (S g) ltac:(lia)). split; [apply po_lt; lia|apply G6; auto].
  - intros [Hv <-]. destruct (inv_group v Hv) as (g & k & _ & Hk & Ek & Eg). rewrite Eg. exists k. auto.
Qed.

Lemma groups_grouping : grouping n ng gp po /\ chain_groups E ng gp po.
Proof.
  pose proof GO as (G1 & G2 & G3 & G4 & G5 & G6 & G7 & _). pose proof PP as (P1 & _). split.
  - unfold grouping, group_partition, level_partition. splits; auto.
    + intros l Hl. pose proof (G3 l Hl). lia.
    + intros. now apply po_lt.
    + intros. now apply po_inj.
  - intros g k Hg Hk Hk2. destruct (G7 g k Hg Hk Hk2) as (_ & J). exact J.
Qed.

(** the last node of a group *)
Definition glast (g : nat) : nat := po.[gp.[S g] - 1].

Lemma glast_in g : g < ng -> glast g < n /\ inv.[glast g] = g.
Proof.
  intros Hg. pose proof GO as (G1 & G2 & G3 & G4 & G5 & G6 & G7 & _). pose proof (G3 g Hg). pose proof (gp_le (S g) ltac:(lia)).
  split; [apply po_lt; lia|apply G6; auto; lia].
Qed.

(** edges out of a group leave from its last node *)
Lemma exit_last g u v : g < ng -> E u v -> inv.[u] = g -> inv.[v] <> g -> u = glast g.
Proof.
  intros Hg He Hu Hv. pose proof GO as (G1 & G2 & G3 & G4 & G5 & G6 & G7 & _). assert (Hun : u < n) by apply He.
  destruct (inv_group u Hun) as (g' & k & Hg' & Hk & <- & Eg). rewrite Eg in Hu. subst g'.
  unfold glast. destruct (Nat.eq_dec k (gp.[S g] - 1)) as [->|Hne]; auto. exfalso.
  destruct (G7 g k Hg ltac:(lia) ltac:(lia)) as (J0 & J1 & J2 & J3). rewrite (J2 v He) in Hv. apply Hv. apply G6; auto. lia.
Qed.

(** no edge from the last node back into its group *)
Lemma last_no_self g v : g < ng -> E (glast g) v -> inv.[v] <> g.
Proof.
  intros Hg He Hv. pose proof GO as (G1 & G2 & G3 & G4 & G5 & G6 & G7 & _). pose proof (gp_le (S g) ltac:(lia)). pose proof (G3 g Hg).
  destruct (inv_group v (edge_lt _ _ He)) as (g' & k & Hg' & Hk & <- & Eg). rewrite Eg in Hv. subst g'.
  unfold glast in He. apply PT in He; lia.
Qed.

(** only the first node of a group is entered from outside *)
Lemma enter_first g u v : g < ng -> E u v -> inv.[v] = g -> inv.[u] <> g -> v = po.[gp.[g]].
Proof.
  intros Hg He Hv Hu. pose proof GO as (G1 & G2 & G3 & G4 & G5 & G6 & G7 & _).
  destruct (inv_group v (edge_lt _ _ He)) as (g' & k & Hg' & Hk & <- & Eg). rewrite Eg in Hv. subst g'.
  destruct (Nat.eq_dec k gp.[g]) as [->|Hne]; auto. exfalso.
  destruct (G7 g (k - 1) Hg ltac:(lia) ltac:(lia)) as (J0 & J1 & J2 & J3).
  replace (S (k - 1)) with k in J3 by lia. apply Hu. rewrite (J3 u He). apply G6; auto. lia.
Qed.

Lemma quotient_last g h : g < ng -> (quotient E ng gp po g h <-> exists v, E (glast g) v /\ inv.[v] = h).
Proof.
  intros Hg. split.
  - intros (_ & Hh & Hne & u & v & Hu & Hv & He). apply in_group in Hu; auto. apply in_group in Hv; auto.
    destruct Hu as [Hu1 Hu2], Hv as [Hv1 Hv2]. exists v. split; auto.
    rewrite <- (exit_last g u v); auto. congruence.
  - intros (v & He & <-). pose proof (last_no_self g v Hg He) as Hne. pose proof (edge_lt _ _ He) as Hv.
    destruct (inv_group v Hv) as (h & k & Hh & Hk & Ek & Eh). rewrite Eh in Hne |- *.
    split; auto. split; auto. split; auto. exists (glast g), v. splits; auto; apply in_group; auto. apply glast_in; auto.
Qed.

Lemma quotient_lt g h : quotient E ng gp po g h -> g < h.
Proof.
  intros HQ. assert (Hg : g < ng) by apply HQ. assert (Hne : g <> h) by apply HQ. apply (quotient_last g h Hg) in HQ. destruct HQ as (v & He & Hv).
  pose proof GO as (G1 & G2 & G3 & G4 & _). pose proof (G3 g Hg). pose proof (gp_le (S g) ltac:(lia)).
  destruct (inv_group v (edge_lt _ _ He)) as (g' & k & Hg' & Hk & <- & Eg). rewrite Eg in Hv. subst g'.
  unfold glast in He. apply PT in He; try lia.
  - destruct (le_lt_dec g h); [lia|]. assert (gp.[S h] <= gp.[g]).
    { apply (mono_le (aget gp) ng); auto; try lia. intros l1 Hl1. pose proof (G3 l1 Hl1). lia. } lia.
  - pose proof (gp_le (S h) ltac:(lia)). lia.
Qed.

(** * The arrays of the group DAG *)
Variables (dp ds : list nat).
Hypothesis HD1 : length dp = S ng.
Hypothesis HD2 : dp.[0] = 0.
Hypothesis HD3 : dp.[ng] = length ds.
Hypothesis HD4 : forall g, g < ng -> dp.[g] <= dp.[S g] /\ slice ds dp.[g] dp.[S g] = gcol g.

Lemma dp_le g : g <= ng -> dp.[g] <= length ds.
Proof. intros Hg. rewrite <- HD3. apply (mono_le (aget dp) ng); auto. intros l Hl. now apply HD4. Qed.

Lemma ds_size g : g < ng -> dp.[S g] - dp.[g] = Lp.[S (glast g)] - Lp.[glast g].
Proof.
  intros Hg. destruct (HD4 g Hg) as [A B]. apply (f_equal (@length nat)) in B. unfold gcol in B.
  destruct (glast_in g Hg) as [C _]. fold (glast g) in B. rewrite map_length in B. pose proof (dp_le (S g) ltac:(lia)).
  pose proof (wf_Lp_mono n Lp Li W (glast g) (S (glast g)) ltac:(lia) ltac:(lia)).
  pose proof (wf_Lp_mono n Lp Li W (S (glast g)) n ltac:(lia) ltac:(lia)). destruct W as (_ & _ & _ & W4 & _).
  rewrite !slice_length in B by lia. auto.
Qed.

Lemma ds_at g k : g < ng -> dp.[g] <= k < dp.[S g] -> ds.[k] = inv.[Li.[Lp.[glast g] + (k - dp.[g])]].
Proof.
  intros Hg Hk. pose proof (ds_size g Hg) as HS. destruct (HD4 g Hg) as [A B]. pose proof (dp_le (S g) ltac:(lia)).
  destruct (glast_in g Hg) as [C _].
  pose proof (wf_Lp_mono n Lp Li W (glast g) (S (glast g)) ltac:(lia) ltac:(lia)).
  pose proof (wf_Lp_mono n Lp Li W (S (glast g)) n ltac:(lia) ltac:(lia)). pose proof W as (_ & _ & _ & W4 & _).
  replace k with (dp.[g] + (k - dp.[g])) at 1 by lia. rewrite <- (aget_slice ds dp.[g] dp.[S g]) by lia. rewrite B. unfold gcol. fold (glast g).
  rewrite (aget_map (aget inv)) by (rewrite slice_length; lia). rewrite aget_slice by lia. auto.
Qed.

Lemma group_dag_ok : wf_csc ng dp ds /\ diag_first ng dp ds /\
  (forall g k k', g < ng -> dp.[g] <= k < dp.[S g] -> dp.[g] <= k' < dp.[S g] -> ds.[k] = ds.[k'] -> k = k') /\
  (forall g h, edge ng dp ds g h <-> quotient E ng gp po g h).
Proof.
  assert (HC : forall g k, g < ng -> dp.[g] <= k < dp.[S g] ->
     let q := Lp.[glast g] + (k - dp.[g]) in Lp.[glast g] <= q < Lp.[S (glast g)] /\ Li.[q] < n).
  { intros g k Hg Hk q. pose proof (ds_size g Hg). destruct (glast_in g Hg) as [C _].
    assert (HQ : Lp.[glast g] <= q < Lp.[S (glast g)]) by (unfold q; lia). split; auto.
    pose proof W as (_ & _ & _ & _ & W5). apply W5. apply (wf_col_lt n Lp Li W (glast g)); auto; lia.
 }
  assert (DFG : diag_first ng dp ds).
  { intros g Hg. destruct (glast_in g Hg) as [C D]. destruct (DF _ C) as (F1 & F2 & F3). pose proof (ds_size g Hg). destruct (HD4 g Hg) as [A _].
    split; [lia|]. split.
    - rewrite (ds_at g) by lia. rewrite Nat.sub_diag, Nat.add_0_r, F2. auto.
    - intros k Hk. rewrite (ds_at g) by lia. apply last_no_self; auto. apply child_edge; auto. lia. }
  split; [|split; [auto|split]].
  - unfold wf_csc. splits; auto; try lia.
    + intros g Hg. now apply HD4.
    + intros k Hk. destruct (bucket_exists (aget dp) ng k ltac:(lia) ltac:(lia)) as (g & Hg & Hk'). rewrite (ds_at g) by auto.
      destruct (HC g k Hg Hk') as [_ X]. destruct (inv_group _ X) as (h & _ & Hh & _ & _ & Eh). lia.
  - intros g k k' Hg Hk Hk' Heq. destruct (glast_in g Hg) as [C D].
    destruct (HC g k Hg Hk) as [X1 X2]. destruct (HC g k' Hg Hk') as [X3 X4].
    destruct (Nat.eq_dec k dp.[g]) as [Ek|Hn].
    { destruct (Nat.eq_dec k' dp.[g]); [lia|]. destruct (DFG g Hg) as (_ & F2 & F3). specialize (F3 k' ltac:(lia)). rewrite Ek in Heq. congruence. }
    destruct (Nat.eq_dec k' dp.[g]) as [Ek|Hn'].
    { destruct (DFG g Hg) as (_ & F2 & F3). specialize (F3 k ltac:(lia)). rewrite Ek in Heq. congruence. }
    rewrite (ds_at g k), (ds_at g k') in Heq by auto.
    set (q := Lp.[glast g] + (k - dp.[g])) in *. set (q' := Lp.[glast g] + (k' - dp.[g])) in *.
    assert (E1 : E (glast g) Li.[q]) by (apply child_edge; auto; lia).
    assert (E2 : E (glast g) Li.[q']) by (apply child_edge; auto; lia).
    pose proof (last_no_self g _ Hg E1) as N1. pose proof (last_no_self g _ Hg E2) as N2.
    destruct (inv_group _ X2) as (h & _ & Hh & _ & _ & Eh).
    assert (V1 : Li.[q] = po.[gp.[h]]) by (apply (enter_first h (glast g)); auto; congruence).
    assert (V2 : Li.[q'] = po.[gp.[h]]) by (apply (enter_first h (glast g)); auto; congruence).
    assert (q = q') by (apply (ND (glast g)); auto; congruence). lia.
  - intros g h. split.
    + intros (Hg & (k & Hk & Ek) & Hne). apply quotient_last; auto. destruct (glast_in g Hg) as [C D].
      destruct (HC g k Hg Hk) as [X1 X2]. rewrite (ds_at g) in Ek by auto. eexists. split; [|exact Ek]. apply child_edge; auto.
      assert (k <> dp.[g]). { intros ->. destruct (DFG g Hg) as (_ & F2 & _). rewrite (ds_at g) in F2 by lia. congruence. } lia.
    + intros HQ. assert (Hg : g < ng) by apply HQ. assert (Hne : g <> h) by apply HQ. apply quotient_last in HQ; auto. destruct HQ as (v & He & Hv).
      destruct (edge_child n Lp Li DF _ _ He) as (C & q & Hq & Eq). pose proof (ds_size g Hg).
      split; auto. split; auto. exists (dp.[g] + (q - Lp.[glast g])). split; [lia|]. rewrite (ds_at g) by lia.
      replace (Lp.[glast g] + (dp.[g] + (q - Lp.[glast g]) - dp.[g])) with q by lia. congruence.
Qed.

(** * The assertions *)
Lemma uniq_nodup (l : list nat) : NoDup l -> uniq l = l.
Proof.
  induction l as [|x l IH]; auto. intros HN. apply NoDup_cons_iff in HN. destruct HN as [H1 H2]. destruct l as [|y l]; auto.
  change (uniq (x :: y :: l)) with (if x =? y then uniq (y :: l) else x :: uniq (y :: l)).
  destruct (Nat.eqb_spec x y) as [->|]; [exfalso; apply H1; now left|]. now rewrite IH.
Qed.

Lemma uniq_prefix g l0 l : (forall x, In x l0 -> x = g) -> uniq (l0 ++ g :: l) = uniq (g :: l).
Proof.
  induction l0 as [|x l0 IH]; intros HA; auto. assert (x = g) by (apply HA; now left). subst x.
  assert (IH' : uniq (l0 ++ g :: l) = uniq (g :: l)) by (apply IH; intros; apply HA; now right). cbn [app].
  destruct l0 as [|y l0].
  - cbn [app]. change (uniq (g :: g :: l)) with (if g =? g then uniq (g :: l) else g :: uniq (g :: l)). now rewrite Nat.eqb_refl.
  - assert (y = g) by (apply HA; right; now left). subst y. cbn [app] in *.
    change (uniq (g :: g :: l0 ++ g :: l)) with (if g =? g then uniq (g :: l0 ++ g :: l) else g :: uniq (g :: l0 ++ g :: l)).
    now rewrite Nat.eqb_refl.
Qed.

Lemma gcol_uniq g : g < ng -> (exists t, gcol g = g :: t) /\ uniq (gcol g) = gcol g.
Proof.
  intros Hg. destruct group_dag_ok as (GW & GD & GN & _). destruct (HD4 g Hg) as [A B]. destruct (GD g Hg) as (F1 & F2 & _).
  pose proof (dp_le (S g) ltac:(lia)). rewrite <- B. split.
  - rewrite slice_cons by lia. rewrite F2. eauto.
  - apply uniq_nodup. apply NoDup_of_aget. intros i j Hi Hj. rewrite slice_length in Hi, Hj by lia.
    rewrite !aget_slice by lia. intros Heq. apply (GN g) in Heq; auto; lia.
Qed.

Lemma pg_asserts_wp : wp (pg_asserts Lp Li deg po gp inv dp ds ng) (fun _ => True).
Proof.
  pose proof GO as (G1 & G2 & G3 & G4 & G5 & G6 & G7 & _). pose proof (wf_Lp_len n Lp Li W). pose proof PP as (P1 & _).
  pose proof W as (_ & _ & W3 & W4 & W5). unfold pg_asserts.
  apply (wp_for (fun _ _ => True)); auto; [lia|]. intros g _ Hg _. pose proof (G3 g ltac:(lia)). pose proof (gp_le (S g) ltac:(lia)).
  wp1. wp1; [lia|]. wp1. wp1; [lia|]. wp1. apply (wp_for (fun _ _ => True)); [lia|auto| |].
  { intros k _ Hk _. destruct (G7 g k ltac:(lia) ltac:(lia) ltac:(lia)) as (J0 & J1 & J2 & J3).
    pose proof (po_lt k ltac:(lia)). pose proof (po_lt (S k) ltac:(lia)).
    wp1. wp1; [lia|]. wp1. wp1; [lia|]. wp1. wp1; [lia|]. wp1. wp1; [lia|]. wp1. wp1; [lia|].
    destruct (edge_child n Lp Li DF _ _ J1) as (_ & q & Hq & Eq).
    assert (HL : Lp.[S po.[k]] = S (S Lp.[po.[k]])) by (apply (one_out po.[k] q); auto; rewrite Eq; auto).
    assert (1 <= deg.[po.[S k]]) by (apply D1; eauto).
    assert (~ 2 <= deg.[po.[S k]]).
    { intros HX. apply D2 in HX; auto. destruct HX as (u & u' & Hne & Hu & Hu'). apply Hne. rewrite (J3 u Hu), (J3 u' Hu'). auto. }
    destruct (Z.eqb_spec (Z.of_nat deg.[po.[S k]]) (Z.of_nat Lp.[S po.[k]] - Z.of_nat Lp.[po.[k]] - 1)); [wp1; auto|lia]. }
  intros _ _. wp1. apply (wp_for (fun _ _ => True)); [lia|auto| |].
  { intros k _ Hk _. pose proof (po_lt k ltac:(lia)). wp1. wp1; [lia|]. wp1. wp1; [lia|]. rewrite (G6 g k) by lia. rewrite Nat.eqb_refl. wp1. auto. }
  intros _ _. wp1.
  apply (wp_for (fun k l => (k < gp.[S g] -> forall x, In x l -> x = g) /\
     (k = gp.[S g] -> exists l0, l = l0 ++ gcol g /\ forall x, In x l0 -> x = g))); [lia| | |].
  - split; [intros _ x []|lia].
  - intros k l Hk [IA _]. specialize (IA ltac:(lia)). pose proof (po_lt k ltac:(lia)) as Hv. set (v := po.[k]) in *.
    pose proof (W3 v Hv). pose proof (wf_Lp_mono n Lp Li W (S v) n ltac:(lia) ltac:(lia)).
    wp1. wp1; [lia|]. fold v. wp1. wp1; [lia|]. wp1. wp1; [lia|].
    apply (wp_for (fun q l' => l' = l ++ map (aget inv) (slice Li Lp.[v] q))); [lia| | |].
    + rewrite slice_nil by lia. cbn [map]. now rewrite app_nil_r.
    + intros q l' Hq ->. pose proof (W5 q ltac:(lia)). wp1. wp1; [lia|]. wp1. wp1; [lia|]. wp1.
      rewrite (slice_app Li Lp.[v] q (S q)) by lia. rewrite map_app, app_assoc. f_equal. rewrite (slice_cons Li q) by lia. rewrite slice_nil by lia. auto.
    + intros l' ->. split.
      * intros Hk2. destruct (G7 g k ltac:(lia) ltac:(lia) ltac:(lia)) as (J0 & J1 & J2 & J3). fold v in J1, J2.
        intros x Hx. apply in_app_iff in Hx. destruct Hx as [Hx|Hx]; auto. apply in_map_iff in Hx. destruct Hx as (y & <- & Hy).
        apply In_slice in Hy; [|lia|lia]. destruct Hy as (q & Hq & <-).
        destruct (Nat.eq_dec q Lp.[v]) as [->|].
        -- destruct (DF v Hv) as (_ & -> & _). apply G6; lia.
        -- rewrite (J2 Li.[q]) by (apply child_edge; auto; lia). apply G6; lia.
      * intros Hk2. exists l. split; auto. f_equal. unfold gcol. replace (gp.[S g] - 1) with k by lia. fold v. auto.
  - intros l [_ IB]. destruct (IB eq_refl) as (l0 & -> & HL0). cbv zeta.
    destruct (gcol_uniq g ltac:(lia)) as [(t & Et) Eu]. assert (EU : uniq (l0 ++ gcol g) = gcol g).
    { rewrite Et. rewrite uniq_prefix by auto. rewrite <- Et. auto. }
    rewrite EU. destruct (HD4 g ltac:(lia)) as [A B]. pose proof (dp_le (S g) ltac:(lia)).
    assert (HLen : length (gcol g) = dp.[S g] - dp.[g]) by (rewrite <- B, slice_length by lia; auto).
    apply (wp_for (fun _ _ => True)); [lia|auto| |auto].
    intros i _ Hi _. wp1. wp1; [lia|]. wp1. wp1; [lia|]. wp1. wp1; [lia|].
    rewrite <- B. rewrite aget_slice by lia. rewrite Nat.eqb_refl. wp1. auto.
Qed.
End Groups.
End PG.
