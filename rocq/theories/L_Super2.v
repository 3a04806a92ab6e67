(** Class SuperNodal: supernodes and their dependence graph. *)
From Coq Require Import ZifyBool ZifyNat.
From Verif Require Import Base Lib Lib2 Lib3 Spec SpecSuper M_PostOrder M_Super L_Sparse2 L_Super.

Definition stored (n : nat) (Lp : list nat) : Prop := forall u, u < n -> Lp.[u] < Lp.[S u].

(** what [createSupernode] leaves behind *)
Definition sup_result (n w : nat) (same : nat -> nat -> Prop) (offv : nat -> nat -> Z) (r : list nat * list Z * list nat) : Prop :=
  let '(c, o, m) := r in
  max_runs n w same c /\ o = map (fun s => offv c.[s] (c.[S s] - c.[s])) (seq 0 (length c - 1)) /\
  length m = n /\ (forall s v, S s < length c -> c.[s] <= v < c.[S s] -> m.[v] = s).

Lemma sup_limit_pos n limit : 0 < n -> 0 < sup_limit n limit.
Proof. unfold sup_limit. destruct (Z.ltb_spec limit 1); lia. Qed.

Lemma createSupernode_csc n Cp Ci Rp Ri limit : wf_csc n Cp Ci -> stored n Cp ->
  wp (createSupernode CSC_TYPE n Cp Ci Rp Ri limit)
    (sup_result n (sup_limit n limit) (same_below Cp Ci) (fun a k => Z.of_nat (length (column Cp Ci a)) - Z.of_nat k - 1)%Z).
Proof.
  intros W NE. pose proof W as (W1 & _). unfold createSupernode. apply wp_bind.
  apply sup_runs_wp with (same := same_below Cp Ci) (offv := fun a k => (Z.of_nat (length (column Cp Ci a)) - Z.of_nat k - 1)%Z).
  - apply same_below_refl.
  - intros first last Q F1 F2 HQ. apply col_joins_wp with (n := n); auto.
  - apply sup_limit_pos.
  - intros first k Q F1 F2 HQ. unfold csc_off. do 2 (apply wp_bind, wp_rd; [lia|]).
    destruct (F2 (first + k) ltac:(lia)) as (S1 & S2). apply (f_equal (@length nat)) in S2. rewrite skipn_length in S2.
    rewrite !(column_length n) in S1 by (auto; lia). rewrite !(column_length n) in S2 by (auto; lia). pose proof (NE (first + k) ltac:(lia)). rewrite (column_length n) in HQ by (auto; lia).
    replace (first + k - first) with k in * by lia.
    destruct (Z.ltb_spec (Z.of_nat Cp.[S first] - Z.of_nat Cp.[first] - Z.of_nat (S k)) 0) as [L|L]; [lia|].
    apply wp_ret. replace (Z.of_nat Cp.[S first] - Z.of_nat Cp.[first] - Z.of_nat (S k) - 1)%Z with (Z.of_nat (Cp.[S first] - Cp.[first]) - Z.of_nat (S k) - 1)%Z by lia. auto.
  - intros c o R Ho. apply wp_bind. apply node_to_sup_wp with (1 := R). intros m M1 M2. apply wp_ret. unfold sup_result. splits; auto.
Qed.

Lemma createSupernode_csr n Cp Ci Rp Ri limit : wf_csc n Rp Ri -> stored n Rp ->
  wp (createSupernode CSR_TYPE n Cp Ci Rp Ri limit)
    (sup_result n (sup_limit n limit) (same_left Rp Ri) (fun a _ => Z.of_nat (length (column Rp Ri a)) - 1)%Z).
Proof.
  intros W NE. pose proof W as (W1 & _). unfold createSupernode. apply wp_bind.
  apply sup_runs_wp with (same := same_left Rp Ri) (offv := fun a (_ : nat) => (Z.of_nat (length (column Rp Ri a)) - 1)%Z).
  - apply same_left_refl.
  - intros first last Q F1 F2 HQ. apply row_joins_wp with (n := n); auto. apply NE. lia.
  - apply sup_limit_pos.
  - intros first k Q F1 F2 HQ. unfold csr_off. do 2 (apply wp_bind, wp_rd; [lia|]).
    pose proof (NE first ltac:(lia)). rewrite (column_length n) in HQ by (auto; lia).
    destruct (Z.ltb_spec (Z.of_nat Rp.[S first] - Z.of_nat Rp.[first] - 1) 0) as [L|L]; [lia|].
    apply wp_ret. replace (Z.of_nat Rp.[S first] - Z.of_nat Rp.[first] - 1)%Z with (Z.of_nat (Rp.[S first] - Rp.[first]) - 1)%Z by lia. auto.
  - intros c o R Ho. apply wp_bind. apply node_to_sup_wp with (1 := R). intros m M1 M2. apply wp_ret. unfold sup_result. splits; auto.
Qed.

(** * The dependence graph *)

Lemma run_bounds n w same c s : max_runs n w same c -> S s < length c -> c.[s] < c.[S s] /\ c.[S s] <= n.
Proof.
  intros R Hs. pose proof R as (R1 & R2 & R3 & R4). destruct (R4 s Hs) as (H & _). split; [lia|].
  rewrite <- R3. eapply runs_mono; eauto; lia.
Qed.

Section DepDAG.
Variables (n : nat) (Lp Li c m : list nat) (w : nat) (same : nat -> nat -> Prop).
Hypothesis W : wf_csc n Lp Li.
Hypothesis D : diag_first n Lp Li.
Hypothesis LT : lower_tri n Lp Li.
Hypothesis R : max_runs n w same c.
Hypothesis M1 : length m = n.
Hypothesis M2 : forall s v, S s < length c -> c.[s] <= v < c.[S s] -> m.[v] = s.

(** the supernodes that supernode [s] must list *)
Definition sup_deps (s : nat) (l : list nat) : Prop :=
  sorted_lt l /\ length l <= Lp.[c.[S s]] - Lp.[c.[s]] /\
  forall x, In x l <-> x = s \/ exists u v, c.[s] <= u < c.[S s] /\ entry Lp Li u v /\ c.[S s] <= v /\ S x < length c /\ c.[x] <= v < c.[S x].

Lemma ptr_mono a b : a <= b -> b <= n -> Lp.[a] <= Lp.[b].
Proof. destruct W as (W1 & W2 & W3 & W4 & W5). apply (mono_le (aget Lp) n). auto. Qed.

Lemma entry_column q : q < Lp.[n] -> exists u, u < n /\ Lp.[u] <= q < Lp.[S u].
Proof. intros Hq. destruct W as (W1 & W2 & W3 & W4 & W5). apply (bucket_exists (aget Lp) n q); auto. lia. Qed.

Lemma sup_children_wp s (Q : list nat -> Prop) : S s < length c -> (forall l, sup_deps s l -> Q l) ->
  wp (sup_children Lp Li m s c.[s] c.[S s]) Q.
Proof.
  intros Hs HQ. pose proof W as (W1 & W2 & W3 & W4 & W5). destruct (run_bounds _ _ _ _ s R Hs) as (B1 & B2).
  destruct (D c.[s] ltac:(lia)) as (D1 & D2 & D3). pose proof (ptr_mono (S c.[s]) c.[S s] ltac:(lia) ltac:(lia)).
  pose proof (ptr_mono c.[S s] n ltac:(lia) ltac:(lia)).
  unfold sup_children. do 2 (apply wp_bind, wp_rd; [lia|]). destruct (Nat.leb_spec Lp.[c.[S s]] Lp.[c.[s]]) as [L|L]; [lia|]. apply wp_bind.
  apply wp_for with (I := fun q acc => (q = Lp.[c.[s]] -> acc = []) /\ (Lp.[c.[s]] < q -> length acc < q - Lp.[c.[s]]) /\
    forall x, In x acc <-> exists q', Lp.[c.[s]] <= q' < q /\ c.[S s] <= Li.[q'] /\ x = m.[Li.[q']]); [lia| | |].
  - splits; auto; try lia. intros x. split; [intros []|]. intros (q' & Hq & _). lia.
  - intros q acc Hq (I1 & I2 & I3). apply wp_bind, wp_rd; [lia|]. pose proof (W5 q ltac:(lia)) as Bq.
    destruct (Nat.leb_spec c.[S s] Li.[q]) as [Lq|Lq].
    + apply wp_bind, wp_rd; [lia|]. apply wp_ret.
      assert (q <> Lp.[c.[s]]) by (intros ->; lia). rewrite app_length. cbn [length]. splits; try lia.
      intros x. rewrite in_app_iff, I3. simpl. split.
      * intros [(q' & E1 & E2 & E3)|[<-|[]]]; [exists q'; splits; auto; lia|exists q; splits; auto; lia].
      * intros (q' & E1 & E2 & E3). destruct (Nat.eq_dec q' q) as [->|]; [right; left; auto|left; exists q'; splits; auto; lia].
    + apply wp_ret. splits; try lia.
      * intros _. destruct (Nat.eq_dec q Lp.[c.[s]]) as [->|]; [rewrite I1 by auto; cbn [length]; lia|]. lia.
      * intros x. rewrite I3. split; intros (q' & H1 & H2 & H3); exists q'; splits; auto; try lia.
        destruct (Nat.eq_dec q' q) as [->|]; lia.
  - intros acc (I1 & I2 & I3). apply wp_ret. apply HQ. unfold sup_deps. splits.
    + apply uniq_sorted, isort_sorted.
    + specialize (I2 L). transitivity (length (isort (acc ++ [s]))).
      * apply NoDup_incl_length; [apply sorted_lt_NoDup, uniq_sorted, isort_sorted|]. intros x Hx. exact (proj1 (uniq_In _ _) Hx).
      * rewrite isort_length, app_length. simpl. lia.
    + intros x. rewrite uniq_In, isort_In, in_app_iff, I3. simpl. split.
      * intros [(q & H1 & H2 & H3)|[<-|[]]]; [|auto]. right. pose proof (W5 q ltac:(lia)) as Bq.
        destruct (entry_column q ltac:(lia)) as (u & U1 & U2). exists u, Li.[q].
        destruct (runs_in _ _ _ _ _ R Bq) as (t & T1 & T2). rewrite (M2 t) in H3 by auto. subst x. splits; auto; try lia.
        -- apply not_gt. intros G. pose proof (ptr_mono (S u) c.[s] ltac:(lia) ltac:(lia)). lia.
        -- destruct (le_lt_dec c.[S s] u) as [G|G]; [|auto]. pose proof (ptr_mono c.[S s] u ltac:(lia) ltac:(lia)). lia.
        -- exists q. auto.
      * intros [->|(u & v & H1 & (q & Hq & <-) & H3 & H4 & H5)]; [auto|]. left. exists q.
        pose proof (ptr_mono c.[s] u ltac:(lia) ltac:(lia)). pose proof (ptr_mono (S u) c.[S s] ltac:(lia) ltac:(lia)).
        splits; auto; try lia. symmetry. apply M2; auto.
Qed.

Lemma createDepDAG_wp nnz (Q : list nat * list nat -> Prop) : Lp.[n] <= nnz ->
  (forall f dp ds, columns (length c - 1) f dp ds -> (forall s, S s < length c -> sup_deps s (f s)) -> Q (dp, ds)) ->
  wp (createDepDAG nnz Lp Li c m) Q.
Proof.
  intros HN HQ. pose proof R as (R1 & R2 & R3 & R4). pose proof W as (W1 & W2 & W3 & W4 & W5). unfold createDepDAG. apply wp_bind.
  apply wp_for with (I := fun k (st : list nat * list nat) => let '(dp, ds) := st in exists f, length dp = S k /\
     (forall u, u <= k -> dp.[u] = length (flat_map f (seq 0 u))) /\ length ds = nnz /\ dp.[k] <= Lp.[c.[k]] /\
     firstn dp.[k] ds = flat_map f (seq 0 k) /\ forall s, s < k -> sup_deps s (f s)); [lia| | |].
  - exists (fun _ => []). splits; auto; try lia.
    + intros u Hu. replace u with 0 by lia. reflexivity.
    + apply repeat_length.
    + change (0 <= Lp.[c.[0]]). lia.
  - intros s (dp & ds) Hs (f & I1 & I2 & I3 & I4 & I5 & I6). do 2 (apply wp_bind, wp_rd; [lia|]). apply wp_bind.
    apply sup_children_wp; [lia|]. intros l Hl. pose proof Hl as (_ & L2 & _).
    destruct (run_bounds _ _ _ _ s R ltac:(lia)) as (B1 & B2). pose proof (ptr_mono c.[s] c.[S s] ltac:(lia) ltac:(lia)).
    pose proof (ptr_mono c.[S s] n ltac:(lia) ltac:(lia)).
    apply wp_bind, wp_back; [lia|]. replace (length dp - 1) with s by lia. apply wp_bind.
    apply wp_foreach with (I := fun pre (st : list nat * nat) => let '(ds', e) := st in e = dp.[s] + length pre /\ length ds' = nnz /\ firstn e ds' = firstn dp.[s] ds ++ pre).
    + simpl. rewrite app_nil_r. splits; auto; lia.
    + intros pre x post (ds' & e) El (J1 & J2 & J3). subst l. rewrite app_length in L2. simpl in L2.
      apply wp_bind, wp_wr; [lia|]. apply wp_ret. rewrite app_length, upd_length. cbn [length]. splits; auto; [lia|].
      apply list_ext.
      * rewrite !app_length, !firstn_length, upd_length. cbn [length]. lia.
      * intros i Hi. rewrite firstn_length, upd_length in Hi. rewrite aget_firstn by lia. rewrite app_assoc, <- J3. rewrite aget_upd by lia.
        destruct (Nat.eqb_spec i e) as [->|].
        -- rewrite aget_app2 by (rewrite firstn_length; lia). rewrite firstn_length. now replace (e - Nat.min e (length ds')) with 0 by lia.
        -- rewrite aget_app1 by (rewrite firstn_length; lia). now rewrite aget_firstn by lia.
    + intros (ds' & e) (J1 & J2 & J3). apply wp_ret.
      exists (fun u => if u =? s then l else f u).
      assert (Eq : forall k, k <= s -> flat_map (fun u => if u =? s then l else f u) (seq 0 k) = flat_map f (seq 0 k)).
      { intros k Hk. rewrite !flat_map_concat_map. f_equal. apply map_ext_in. intros u Hu. apply in_seq in Hu. destruct (Nat.eqb_spec u s); [lia|auto]. }
      assert (E1 : (dp ++ [dp.[s] + length l]).[S s] = dp.[s] + length l) by (rewrite <- I1; apply aget_app_last).
      splits; auto.
      * rewrite app_length. simpl. lia.
      * intros u Hu. destruct (Nat.eq_dec u (S s)) as [->|].
        -- rewrite E1. rewrite flat_map_S, app_length, Eq, Nat.eqb_refl by lia. rewrite <- I2 by lia. auto.
        -- rewrite aget_app1 by lia. rewrite Eq by lia. apply I2. lia.
      * rewrite E1. lia.
      * rewrite E1, <- J1, J3, flat_map_S, Eq, Nat.eqb_refl, I5 by lia. auto.
      * intros t Ht. destruct (Nat.eqb_spec t s) as [->|]; auto. apply I6. lia.
  - intros (dp & ds) (f & I1 & I2 & I3 & I4 & I5 & I6). apply wp_bind, wp_back; [lia|]. replace (length dp - 1) with (length c - 1) by lia. apply wp_ret.
    rewrite R3 in I4. replace (dp.[length c - 1] - nnz) with 0 by lia. simpl. rewrite app_nil_r. apply (HQ f).
    + unfold columns. splits; auto.
    + intros s Hs. apply I6. lia.
Qed.

Local Notation sup_edge := (run_edge (edge n Lp Li) c).

Lemma sup_deps_cases s l x : S s < length c -> sup_deps s l -> (In x l <-> x = s \/ sup_edge s x).
Proof.
  intros Hs (_ & _ & H). rewrite H. destruct (run_bounds _ _ _ _ s R Hs) as (B1 & B2). split.
  - intros [->|(u & v & H1 & H2 & H3 & H4 & H5)]; [auto|]. right. unfold run_edge. splits; auto.
    + intros ->. lia.
    + exists u, v. splits; auto; try lia. unfold edge. splits; auto; lia.
  - intros [->|(H1 & _ & H2 & u & v & U & V & E)]; [auto|]. right. exists u, v. pose proof (LT _ _ E). destruct E as (E1 & E2 & E3). splits; auto; try lia.
    destruct (le_lt_dec c.[S s] v) as [G|G]; auto. exfalso.
    destruct (lt_eq_lt_dec s x) as [[G'|G']|G'].
    + pose proof (runs_mono _ _ _ _ (S s) x R ltac:(lia) ltac:(lia)). lia.
    + lia.
    + pose proof (runs_mono _ _ _ _ (S x) s R ltac:(lia) ltac:(lia)). lia.
Qed.

Lemma sup_edge_lt s t : sup_edge s t -> s < t.
Proof.
  intros (H1 & H2 & H3 & u & v & U & V & E). pose proof (LT _ _ E). apply not_ge. intros G.
  pose proof (runs_mono _ _ _ _ (S t) s R ltac:(lia) ltac:(lia)). lia.
Qed.

Lemma depdag_graph f dp ds : columns (length c - 1) f dp ds -> (forall s, S s < length c -> sup_deps s (f s)) ->
  wf_csc (length c - 1) dp ds /\ length dp = length c /\ length ds = dp.[length c - 1] /\ diag_first (length c - 1) dp ds /\ lower_tri (length c - 1) dp ds /\
  sorted_cols (length c - 1) dp ds /\ forall s t, edge (length c - 1) dp ds s t <-> sup_edge s t.
Proof.
  intros C F. pose proof R as (R1 & _).
  assert (FI : forall s x, s < length c - 1 -> (In x (f s) <-> x = s \/ sup_edge s x)) by (intros s x Hs; apply sup_deps_cases; [lia|apply F; lia]).
  assert (FE : forall s t, edge (length c - 1) dp ds s t <-> sup_edge s t).
  { intros s t. rewrite (columns_edge _ _ _ _ C). split.
    - intros (H1 & H2 & H3). apply FI in H2; auto. destruct H2; [congruence|auto].
    - intros E. pose proof E as (E1 & E2 & _). splits; auto; [lia|]. apply FI; [lia|auto]. }
  splits; auto.
  - apply (columns_wf _ _ _ _ C). intros s x Hs Hx. apply FI in Hx; auto. destruct Hx as [->|(_ & _ & Hx & _)]; lia.
  - destruct C as (C1 & _). lia.
  - symmetry. apply (columns_n _ _ _ _ C).
  - apply (columns_diag _ _ _ _ C). intros s Hs. destruct (F s ltac:(lia)) as (S1 & _). pose proof (FI s) as FI'.
    destruct (f s) as [|x t] eqn:Ef.
    + exfalso. apply (FI' s Hs). auto.
    + apply sorted_lt_cons in S1. destruct S1 as (S1 & S2).
      assert (Ex : x = s).
      { destruct (FI' s Hs) as (_ & Hin). destruct (Hin (or_introl eq_refl)) as [E|E]; auto. specialize (S1 s E).
        destruct (proj1 (FI' x Hs) (or_introl eq_refl)) as [E'|E']; [lia|]. apply sup_edge_lt in E'. lia. }
      subst x. exists t. split; auto. intros Hin. specialize (S1 s Hin). lia.
  - intros s t E. apply FE in E. now apply sup_edge_lt.
  - apply (columns_sorted _ _ _ _ C). intros s Hs. apply F. lia.
Qed.
End DepDAG.
