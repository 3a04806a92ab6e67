(** Properties of elimination trees (C36, C68, C69). *)
From Coq Require Import ZifyBool ZifyNat.
From Verif Require Import Base Lib Lib2 Lib3 Spec SpecETree M_ETree P_Tree P_Post L_ETree L_ETree2.

Lemma etree_parent_unique A n i p q : etree_parent A n i p -> etree_parent A n i q -> p = q.
Proof.
  intros [[-> H]|(k & -> & H1 & H2 & H3 & H4)] [[-> H']|(k' & -> & H1' & H2' & H3' & H4')]; auto.
  - destruct (H k' H1' H2' H3').
  - destruct (H' k H1 H2 H3).
  - pose proof (H4 k' H1' H3'). pose proof (H4' k H1 H3). lia.
Qed.

(** * C36 *)

(** computeParents returns the elimination tree of the strict lower triangle, whatever the
    output vector held. *)
Theorem C36_computeParents : forall n Ap Ai parents0, wf_rows n Ap Ai ->
  exists par, computeParents n Ap Ai parents0 = Ok par /\ length par = n /\
    forall v, v < n -> etree_parent (below n Ap Ai) n v par.[v].
Proof. intros n Ap Ai P0 W. pose proof (computeParents_wp n Ap Ai P0 W) as G. apply wp_ok in G. destruct G as (par & E & H1 & H2). eauto. Qed.
Print Assumptions C36_computeParents.

(** compute_etree on the upper triangle of a symmetric matrix: the same tree. *)
Theorem C36_compute_etree_sym : forall m n Ap Ai stype Parent0, wf_rows n Ap Ai -> length Parent0 = n -> (0 < stype)%Z -> n <= m ->
  exists par, compute_etree m n Ap Ai stype Parent0 = Ok (true, par) /\ length par = n /\
    forall v, v < n -> etree_parent (below n Ap Ai) n v par.[v].
Proof.
  intros m n Ap Ai stype P0 W HL Hs Hm. pose proof (compute_etree_sym n m Ap Ai P0 W HL stype Hs Hm) as G. apply wp_ok in G. destruct G as ([b par] & E & H1 & H2 & H3). cbn in *. subst b. eauto.
Qed.
Print Assumptions C36_compute_etree_sym.

Theorem C36_same_tree : forall m n Ap Ai stype P0 P1, wf_rows n Ap Ai -> length P1 = n -> (0 < stype)%Z -> n <= m ->
  exists par, computeParents n Ap Ai P0 = Ok par /\ compute_etree m n Ap Ai stype P1 = Ok (true, par).
Proof.
  intros m n Ap Ai stype P0 P1 W HL Hs Hm. destruct (C36_computeParents n Ap Ai P0 W) as (par & E & L & H). destruct (C36_compute_etree_sym m n Ap Ai stype P1 W HL Hs Hm) as (par' & E' & L' & H').
  exists par. split; auto. rewrite E'. do 2 f_equal. apply list_ext; [lia|]. intros i Hi. eapply etree_parent_unique; [apply H'|apply H]; lia.
Qed.
Print Assumptions C36_same_tree.

(** compute_etree on an unsymmetric matrix: the elimination tree of A'A, when no column
    repeats a row index. *)
Theorem C36_compute_etree_unsym : forall m n Ap Ai Parent0, wf_rows n Ap Ai -> length Parent0 = n ->
  (forall p, Ap.[0] <= p < Ap.[n] -> Ai.[p] < m) ->
  (forall j p q, j < n -> Ap.[j] <= p < Ap.[S j] -> Ap.[j] <= q < Ap.[S j] -> Ai.[p] = Ai.[q] -> p = q) ->
  exists par, compute_etree m n Ap Ai 0 Parent0 = Ok (true, par) /\ length par = n /\
    forall v, v < n -> etree_parent (share_row n Ap Ai) n v par.[v].
Proof.
  intros m n Ap Ai P0 W HL HI HN. pose proof (compute_etree_unsym m n Ap Ai W HI HN P0 HL) as G. apply wp_ok in G. destruct G as ([b par] & E & H1 & H2 & H3). cbn in *. subst b. eauto.
Qed.
Print Assumptions C36_compute_etree_unsym.

(** A repeated index makes a node its own parent. *)
Theorem C36_duplicates_refuted :
  ~ (forall m n Ap Ai Parent0 par, wf_rows n Ap Ai -> length Parent0 = n -> (forall p, Ap.[0] <= p < Ap.[n] -> Ai.[p] < m) ->
       compute_etree m n Ap Ai 0 Parent0 = Ok (true, par) -> forall v, v < n -> par.[v] <> Z.of_nat v).
Proof.
  intros H. apply (H 1 1 [0; 2] [0; 0] [5]%Z [0]%Z) with (v := 0); try lia; try reflexivity.
  - split; [simpl; lia|]. intros [|k] Hk; vm_compute; lia.
  - intros [|[|p]] Hp; vm_compute in *; lia.
Qed.
Print Assumptions C36_duplicates_refuted.

(** Fewer rows than columns with stype <> 0 (the workspace is sized by the rows): out of bounds. *)
Theorem C36_few_rows_out_of_bounds : forall m n Ap Ai stype Parent0, length Parent0 = n -> stype <> 0%Z -> m < n ->
  compute_etree m n Ap Ai stype Parent0 = Err OOB.
Proof.
  intros m n Ap Ai stype P0 HL Hs Hm. unfold compute_etree. destruct (Z.eqb_spec stype 0); [lia|]. rewrite (init_oob n P0 HL m Hm). reflexivity.
Qed.
Print Assumptions C36_few_rows_out_of_bounds.

(** The lower triangle is refused, and the output is then a forest of roots. *)
Theorem C36_lower_refused : forall m n Ap Ai stype Parent0, length Parent0 = n -> (stype < 0)%Z -> n <= m ->
  exists par, compute_etree m n Ap Ai stype Parent0 = Ok (false, par) /\ forall v, v < n -> par.[v] = (-1)%Z.
Proof.
  intros m n Ap Ai stype P0 HL Hs Hm. unfold compute_etree. destruct (Z.eqb_spec stype 0); [lia|]. destruct (Z.ltb_spec 0 stype); [lia|].
  pose proof (init_wp n P0 HL m Hm) as G. apply wp_ok in G. destruct G as (st & E & H0). rewrite E. cbn [bind].
  exists (fst st). split; auto. intros v Hv. destruct (H0 (fun _ _ => False) ltac:(tauto)) as (_ & _ & _ & H1). apply H1. lia.
Qed.
Print Assumptions C36_lower_refused.

Lemma etree_forest A n par : length par = n -> (forall v, v < n -> etree_parent A n v par.[v]) ->
  forall u, u < n -> par.[u] = (-1)%Z \/ (Z.of_nat u < par.[u] < Z.of_nat n)%Z.
Proof. intros HL H u Hu. destruct (H u Hu) as [[-> _]|(k & -> & H1 & H2 & _)]; [auto|right; lia]. Qed.

(** The result is a forest in the sense of C37/C65-C67. *)
Theorem C36_forest : forall A n par, length par = n -> (forall v, v < n -> etree_parent A n v par.[v]) -> forall u, u < n -> rooted n par u.
Proof. intros A n par HL H. apply larger_parents_rooted. now apply (etree_forest A). Qed.
Print Assumptions C36_forest.

(** rows 0: {0}, 1: {1}, 2: {0,2}, 3: {1,3}, 4: {0,4}, 5: {3,5}, with fill 2-4 *)
Example C36_case : let Ap := [0;1;2;4;6;8;10] in let Ai := [0; 1; 0;2; 1;3; 0;4; 3;5] in
  wf_rows 6 Ap Ai /\ computeParents 6 Ap Ai [7]%Z = Ok [2; 3; 4; 5; -1; -1]%Z /\
  compute_etree 6 6 Ap Ai 1 (repeat 9%Z 6) = Ok (true, [2; 3; 4; 5; -1; -1]%Z).
Proof. intros Ap Ai. splits; try reflexivity. split; [simpl; lia|]. intros [|[|[|[|[|[|k]]]]]] Hk; vm_compute; lia. Qed.

(** columns {0,1}, {1}, {2}, {0,2}: A'A joins 0-1, 0-3, 2-3 *)
Example C36_unsym_case : compute_etree 3 4 [0;2;3;4;6] [0;1; 1; 2; 0;2] 0 (repeat 9%Z 4) = Ok (true, [1; 3; 3; -1]%Z).
Proof. reflexivity. Qed.

(** * C68: the tree covers all dependences *)

Section Tree.
Variables (A : nat -> nat -> Prop) (n : nat) (par : list Z).
Hypothesis EP : forall v, v < n -> etree_parent A n v par.[v].

Lemma fill_desc_aux d : forall i k, k - i <= d -> fill A i k -> i < k -> k < n -> desc n par i k.
Proof.
  induction d as [|d IH]; intros i k Hd F Hi Hk; [lia|]. destruct (EP i ltac:(lia)) as [[_ H]|(p & Ep & H1 & H2 & H3 & H4)]; [destruct (H k Hi Hk F)|].
  specialize (H4 k Hi F). apply desc_step with p; auto. destruct (Nat.eq_dec p k) as [->|]; [constructor|]. apply IH; try lia. apply fill_elim with i; auto; lia.
Qed.

Lemma fill_desc i k : fill A i k -> i < k -> k < n -> desc n par i k.
Proof. apply (fill_desc_aux (k - i)); auto. Qed.

Lemma desc_up u v : desc n par u v -> u < n -> u <= v /\ v < n.
Proof. induction 1 as [u|u p v H1 H2 H3 IH]; intros Hu; [lia|]. specialize (IH H2). destruct (EP u Hu) as [[E _]|(k & E & K & _)]; lia. Qed.

Lemma fill_up k j v : desc n par j v -> j < n -> fill A j k -> j < k -> k < n -> v < k -> fill A v k.
Proof.
  induction 1 as [j|j p v H1 H2 H3 IH]; intros Hj F Hjk Hk Hv; auto.
  destruct (EP j Hj) as [[E _]|(q & E & K1 & K2 & K3 & K4)]; [lia|]. assert (q = p) by lia. subst q. specialize (K4 k Hjk F).
  destruct (desc_up p v H3 H2). apply IH; auto; try lia. apply fill_elim with j; auto; lia.
Qed.
End Tree.

Lemma desc_reaches n par (E : nat -> nat -> Prop) : (forall u v, u < n -> par.[u] = Z.of_nat v -> v < n -> E u v) -> forall u v, desc n par u v -> u < n -> reaches E u v.
Proof.
  intros HE u v H. induction H as [u|u p v H1 H2 H3 IH]; intros Hu; [exists 0; constructor|]. destruct (IH H2) as [k Hk]. specialize (HE u p Hu H1 H2).
  exists (S k). clear -Hk HE. induction Hk as [|p v w k Hk IH Hw]; [econstructor; eauto; constructor|]. econstructor; eauto.
Qed.

(** buildETree stores the elimination tree as a graph, one column per node holding the node and its parent. *)
Theorem C68_buildETree : forall n Ap Ai, wf_rows n Ap Ai ->
  exists par ptr set, buildETree n Ap Ai = Ok (ptr.[n], ptr, set) /\ computeParents n Ap Ai [] = Ok par /\
    wf_csc n ptr set /\ diag_first n ptr set /\ lower_tri n ptr set /\ length ptr = S n /\ length set = ptr.[n] /\
    (forall v, v < n -> slice set ptr.[v] ptr.[S v] = v :: (if (par.[v] =? -1)%Z then [] else [Z.to_nat par.[v]])) /\
    (forall u v, edge n ptr set u v <-> u < n /\ par.[u] = Z.of_nat v).
Proof.
  intros n Ap Ai W. destruct (C36_computeParents n Ap Ai [] W) as (par & E & L & H). pose proof (etree_forest _ n par L H) as HF.
  assert (G : wp (buildETree n Ap Ai) (fun r => let '(ne, ptr, set) := r in ne = ptr.[n] /\ length ptr = S n /\ length set = ptr.[n] /\ ptr.[0] = 0 /\
     forall v, v < n -> ptr.[v] <= ptr.[S v] <= ptr.[n] /\ slice set ptr.[v] ptr.[S v] = v :: (if (par.[v] =? -1)%Z then [] else [Z.to_nat par.[v]]))).
  { unfold buildETree. rewrite E. cbn [bind]. wp1.
    apply (wp_for (fun i s => let '(ne, ptr, set) := s in length ptr = i /\ length set = ne /\ (i = 0 -> ne = 0) /\ (ptr ++ [ne]).[0] = 0 /\
      forall v, v < i -> (ptr ++ [ne]).[v] <= (ptr ++ [ne]).[S v] <= ne /\ slice set (ptr ++ [ne]).[v] (ptr ++ [ne]).[S v] = v :: (if (par.[v] =? -1)%Z then [] else [Z.to_nat par.[v]]))).
    - lia.
    - splits; auto. lia.
    - intros i [[ne ptr] set] Hi (L1 & L2 & L3 & L4 & I). wp1. wp1; [lia|].
      assert (AUX : forall ne' tail, tail = i :: (if (par.[i] =? -1)%Z then [] else [Z.to_nat par.[i]]) -> ne' = ne + length tail ->
        length (ptr ++ [ne]) = S i /\ length (set ++ tail) = ne' /\ (S i = 0 -> ne' = 0) /\ ((ptr ++ [ne]) ++ [ne']).[0] = 0 /\
        forall v, v < S i -> ((ptr ++ [ne]) ++ [ne']).[v] <= ((ptr ++ [ne]) ++ [ne']).[S v] <= ne' /\ slice (set ++ tail) ((ptr ++ [ne]) ++ [ne']).[v] ((ptr ++ [ne]) ++ [ne']).[S v] = v :: (if (par.[v] =? -1)%Z then [] else [Z.to_nat par.[v]])).
      { intros ne' tail Et En. assert (LP : length (ptr ++ [ne]) = S i) by (rewrite app_length; simpl; lia). splits; auto; try lia.
        - rewrite app_length. lia.
        - rewrite aget_app1 by lia. auto.
        - intros v Hv. destruct (Nat.eq_dec v i) as [->|Hne].
          + rewrite aget_app1 by lia. rewrite (aget_app2 ptr) by lia. rewrite L1, Nat.sub_diag. rewrite (aget_app2 (ptr ++ [ne])) by lia. rewrite LP, Nat.sub_diag. cbn. split; [lia|].
            rewrite <- Et. unfold slice. rewrite skipn_app, skipn_all2 by lia. replace (ne - length set) with 0 by lia. cbn [skipn app]. rewrite firstn_all2 by lia. reflexivity.
          + rewrite !(aget_app1 (ptr ++ [ne])) by lia. destruct (I v ltac:(lia)) as [[I1 I2] I3]. split; [lia|].
            rewrite <- I3. apply slice_ext; [rewrite app_length; lia|lia|lia|]. intros k Hk. now rewrite aget_app1 by lia. }
      destruct (Z.eqb_spec par.[i] (-1)) as [Ei|Ei].
      + wp1. apply AUX; auto. simpl. lia.
      + destruct (HF i ltac:(lia)) as [|Hp]; [lia|]. destruct (Z.ltb_spec (Z.of_nat i) par.[i]); [|lia]. wp1. rewrite <- app_assoc. cbn [app]. apply AUX; auto. simpl. lia.
    - intros [[ne ptr] set] (L1 & L2 & L3 & L4 & I). wp1. assert (EN : (ptr ++ [ne]).[n] = ne) by (rewrite aget_app2 by lia; now rewrite L1, Nat.sub_diag).
      rewrite EN. splits; auto. rewrite app_length. simpl. lia. }
  apply wp_ok in G. destruct G as ([[ne ptr] set] & EB & -> & LP & LS & P0 & I). exists par, ptr, set. split; [auto|]. split; [auto|].
  assert (IN : forall v x, v < n -> entry ptr set v x <-> x = v \/ par.[v] = Z.of_nat x).
  { intros v x Hv. destruct (I v Hv) as [I1 I2]. unfold entry. rewrite <- In_slice by lia. rewrite I2. destruct (Z.eqb_spec par.[v] (-1)); simpl; destruct (HF v Hv); split; intros Q; repeat destruct Q as [Q|Q]; try lia; auto. }
  assert (BD : forall k, k < ptr.[n] -> set.[k] < n).
  { intros k Hk. assert (exists v, v < n /\ ptr.[v] <= k < ptr.[S v]) as (v & Hv & Hkv).
    { clear -I P0 Hk. assert (G : forall j, j <= n -> k < ptr.[j] -> exists v, v < n /\ ptr.[v] <= k < ptr.[S v]); [|apply (G n); auto].
      induction j as [|j IH]; intros Hj Hkj; [lia|]. destruct (Nat.le_gt_cases ptr.[j] k); [exists j; split; lia|apply IH; lia]. }
    assert (entry ptr set v set.[k]) by (exists k; auto). apply IN in H0; auto. destruct (HF v Hv), H0; lia. }
  assert (EI : forall u v, edge n ptr set u v <-> u < n /\ par.[u] = Z.of_nat v).
  { intros u v. unfold edge. split.
    - intros (H1 & H2 & H3). apply IN in H2; auto. destruct H2; [congruence|auto].
    - intros [H1 H2]. splits; auto; [apply IN; auto|]. destruct (HF u H1); lia. }
  split. { unfold wf_csc. splits; auto; try lia. intros i Hi. apply I. auto. }
  split.
  { intros u Hu. destruct (I u Hu) as [I1 I2]. assert (LN : length (slice set ptr.[u] ptr.[S u]) = ptr.[S u] - ptr.[u]) by (apply slice_length; lia). rewrite I2 in LN. cbn [length] in LN. split; [lia|]. split.
    - replace set.[ptr.[u]] with (slice set ptr.[u] ptr.[S u]).[0] by (rewrite aget_slice by lia; now rewrite Nat.add_0_r). now rewrite I2.
    - intros k Hk. replace set.[k] with (slice set ptr.[u] ptr.[S u]).[k - ptr.[u]] by (rewrite aget_slice by lia; f_equal; lia). rewrite I2. destruct (HF u Hu) as [E1|E1].
      + rewrite E1 in LN. cbn in LN. lia.
      + destruct (Z.eqb_spec par.[u] (-1)); [lia|]. cbn [length] in LN. replace (k - ptr.[u]) with 1 by lia. cbn. lia. }
  split. { intros u v Huv. apply EI in Huv. destruct Huv as [H1 H2]. destruct (HF u H1); lia. }
  splits; auto. intros v Hv. apply I. auto.
Qed.
Print Assumptions C68_buildETree.

(** Every entry of the matrix (indeed of its factor) joins a node to one of its ancestors, so
    the graph of buildETree orders every dependence of the matrix. *)
Theorem C68_covers_dependences : forall n Ap Ai ne ptr set, wf_rows n Ap Ai -> buildETree n Ap Ai = Ok (ne, ptr, set) ->
  forall i k, i < k -> k < n -> fill (below n Ap Ai) i k -> reaches (edge n ptr set) i k.
Proof.
  intros n Ap Ai ne ptr set W E i k Hi Hk F. destruct (C68_buildETree n Ap Ai W) as (par & ptr' & set' & E' & EP & _ & _ & _ & _ & _ & _ & EI).
  rewrite E in E'. injection E' as _ <- <-. destruct (C36_computeParents n Ap Ai [] W) as (par' & E2 & L & H). rewrite EP in E2. injection E2 as <-.
  apply (desc_reaches n par); [|eapply fill_desc; eauto|lia]. intros u v Hu Ev Hv. apply EI. auto.
Qed.
Print Assumptions C68_covers_dependences.

Theorem C68_entries_ordered : forall n Ap Ai ne ptr set, wf_rows n Ap Ai -> buildETree n Ap Ai = Ok (ne, ptr, set) ->
  forall i k, i < k -> k < n -> entry Ap Ai k i -> reaches (edge n ptr set) i k.
Proof. intros n Ap Ai ne ptr set W E i k Hi Hk He. eapply C68_covers_dependences; eauto. apply fill_entry; [left; unfold below; auto|lia]. Qed.
Print Assumptions C68_entries_ordered.

Example C68_case : buildETree 6 [0;1;2;4;6;8;10] [0; 1; 0;2; 1;3; 0;4; 3;5] = Ok (10, [0; 2; 4; 6; 8; 9; 10], [0; 2; 1; 3; 2; 4; 3; 5; 4; 5]).
Proof. reflexivity. Qed.
