(** C99-C102: the coarse graph of coarsen_k_times, the graphs passed to METIS and what is made of its answers. *)
From Coq Require Import ZifyBool ZifyNat.
From Verif Require Import Base Lib Lib3 Spec Check SpecMat M_Mat L_Mat L_LBC5 L_Merge M_Metis L_Metis L_Metis2.

(** ** C99: groups of [k] consecutive nodes become one *)
Theorem C99_coarsen : forall n nnz Ap Ai k,
  wf_csc n Ap Ai -> Ap.[n] <= nnz -> 1 <= k -> 0 < n ->
  exists m Bp Bi, coarsen_k_times n nnz Ap Ai k = Ok (m, (Bp, Bi), Bp.[m]) /\
    (m - 1) * k < n <= m * k /\ wf_csc m Bp Bi /\ length Bi = nnz /\
    (forall J I, J < m -> (entry Bp Bi J I <-> exists j i, j < n /\ j / k = J /\ i / k = I /\ entry Ap Ai j i)) /\
    (forall J a b, J < m -> Bp.[J] <= a < Bp.[S J] -> Bp.[J] <= b < Bp.[S J] -> Bi.[a] = Bi.[b] -> a = b).
Proof.
  intros n nnz Ap Ai k W Hz Hk Hn.
  assert (H : wp (coarsen_k_times n nnz Ap Ai k) (fun r => exists cols Bp Bi, r = (new_size n k, (Bp, Bi), length (concat cols)) /\
    ccols n Ap Ai k cols (new_size n k) /\ rep cols Bp Bi /\ length Bp = new_size n k + 1 /\ length Bi = nnz /\ length (concat cols) <= nnz)).
  { apply coarsen_wp; auto. intros cols Bp Bi. intros. exists cols, Bp, Bi. do 5 (split; [auto|]). lia. }
  apply wp_ok in H. destruct H as (r & E & cols & Bp & Bi & -> & [C1 C2 C3] & R & L1 & L2 & L3).
  exists (new_size n k), Bp, Bi.
  assert (Hlt : forall c x, c < new_size n k -> In x cols.[c] -> x < new_size n k).
  { intros c x Hc Hx. apply C3 in Hx; [|auto]. destruct Hx as (l & q & Hl & _ & (j & Hj & <-) & <-). apply new_size_lt; auto. destruct W as (W1 & W2 & W3 & W4 & W5).
    apply W5. assert (Ap.[S l] <= Ap.[n]) by (apply (mono_le (aget Ap) n); auto; lia). lia. }
  split; [rewrite E; f_equal; f_equal; rewrite (proj1 R) by lia; now rewrite <- C1, firstn_all|].
  split. { assert (0 < new_size n k) by (pose proof (new_size_lt n k 0 Hk Hn) as HH; rewrite Nat.div_0_l in HH by (clear -Hk; lia); exact HH). split.
    - apply (new_size_le n k (new_size n k - 1)); lia.
    - pose proof (new_size_lt n k (n - 1) Hk ltac:(lia)) as HH. pose proof (Nat.div_mod (n - 1) k ltac:(lia)). pose proof (Nat.mod_upper_bound (n - 1) k ltac:(lia)). nia. }
  split; [apply (rep_wf (new_size n k) cols); auto; try lia|]. split; [auto|]. split.
  - intros J I HJ. rewrite (rep_entry (new_size n k) cols) by (auto; lia). rewrite C3 by auto. split.
    + intros (j & i & A1 & A2 & A3 & A4). exists j, i. auto.
    + intros (j & i & A1 & A2 & A3 & A4). exists j, i. auto.
  - intros J a b HJ Ha Hb E'. pose proof (rep_slice cols Bp Bi J R ltac:(lia) ltac:(lia)) as ES. pose proof (C2 J HJ) as ND. rewrite <- ES in ND.
    assert (LS : length (slice Bi Bp.[J] Bp.[S J]) = Bp.[S J] - Bp.[J]).
    { apply slice_length; [lia|]. rewrite (proj1 R) by lia. rewrite <- (firstn_skipn (S J) cols), concat_app, app_length in L3. lia. }
    assert (a - Bp.[J] = b - Bp.[J]); [|lia].
    apply (NoDup_aget _ _ _ ND); [lia|lia|]. rewrite !aget_slice by lia. replace (Bp.[J] + (a - Bp.[J])) with a by lia. replace (Bp.[J] + (b - Bp.[J])) with b by lia. auto.
Qed.
Print Assumptions C99_coarsen.

(** a factor of zero divides by zero, and a matrix without columns writes through a null pointer *)
Theorem C99_no_group : forall n nnz Ap Ai, coarsen_k_times n nnz Ap Ai 0 = Err DivZero.
Proof. reflexivity. Qed.
Theorem C99_empty : forall nnz Ap Ai k, 1 <= k -> coarsen_k_times 0 nnz Ap Ai k = Err OOB.
Proof.
  intros nnz Ap Ai k Hk. unfold coarsen_k_times. replace (k =? 0) with false by lia. cbv zeta. rewrite Nat.mod_0_l, Nat.div_0_l by lia. reflexivity.
Qed.
Print Assumptions C99_no_group. Print Assumptions C99_empty.

Example C99_applies : wf_csc 5 [0;2;4;6;8;9] [0;3;1;4;2;4;3;4;4].
Proof. now apply wf_cscb_ok. Qed.

(** ** What METIS asks of a graph: indices in range, no self loops, and every edge stored at both ends *)
Definition metis_graph (n : nat) (p i : list nat) : Prop :=
  wf_csc n p i /\ forall u v, u < n -> entry p i u v -> u <> v /\ entry p i v u.

(** ** C100: the graph of a full matrix is its pattern without the diagonal, by rows *)
Theorem C100_general_graph : forall (V : Type) (DV : Dflt V) (A : csc V),
  mat_ok A -> cm A = cn A -> 0 < cn A ->
  exists p i, general_graph A = Ok (p, i) /\ wf_csc (cn A) p i /\
    (forall u v, u < cn A -> (entry p i u v <-> v < cn A /\ u <> v /\ entry (cp A) (ci A) v u)).
Proof.
  intros V DV A HA Hsq Hn.
  assert (H : wp (general_graph A) (fun r => rep (map (offrow A) (seq 0 (cn A))) (fst r) (snd r) /\ length (fst r) = cn A + 1 /\
    length (concat (map (offrow A) (seq 0 (cn A)))) <= length (snd r))).
  { apply general_graph_wp; auto. intros p i R Lp Li Lc. split; [auto|]. split; [auto|]. cbn [snd]. lia. }
  apply wp_ok in H. destruct H as ([p i] & E & R & Lp & Lc). cbn [fst snd] in *. exists p, i. split; [auto|].
  assert (EC : forall u, u < cn A -> (map (offrow A) (seq 0 (cn A))).[u] = offrow A u) by (intros u Hu; rewrite aget_map by (rewrite seq_length; lia); now rewrite aget_seq by lia).
  split.
  - apply (rep_wf _ (map (offrow A) (seq 0 (cn A)))); auto; [now rewrite map_length, seq_length|]. intros u v Hu Hv. rewrite EC in Hv by auto. apply offrow_In in Hv. tauto.
  - intros u v Hu. rewrite (rep_entry (cn A) (map (offrow A) (seq 0 (cn A)))) by (auto; now rewrite map_length, seq_length). rewrite EC by auto. rewrite offrow_In. tauto.
Qed.
Print Assumptions C100_general_graph.

(** it is a graph METIS accepts exactly if the pattern is symmetric *)
Theorem C100_valid_iff_symmetric : forall (V : Type) (DV : Dflt V) (A : csc V),
  mat_ok A -> cm A = cn A -> 0 < cn A ->
  exists p i, general_graph A = Ok (p, i) /\
    (metis_graph (cn A) p i <-> forall u v, u < cn A -> v < cn A -> entry (cp A) (ci A) u v -> entry (cp A) (ci A) v u).
Proof.
  intros V DV A HA Hsq Hn. destruct (C100_general_graph V DV A HA Hsq Hn) as (p & i & E & W & H). exists p, i. split; [auto|]. split.
  - intros [_ G] u v Hu Hv He. destruct (Nat.eq_dec u v) as [->|Hne]; [auto|].
    assert (E1 : entry p i v u) by (apply H; auto). apply G in E1; [|auto]. destruct E1 as [_ E1]. apply H in E1; [|auto]. tauto.
  - intros S. split; [auto|]. intros u v Hu He. apply H in He; auto. destruct He as (Hv & Hne & He). split; [auto|]. apply H; [auto|]. split; [auto|]. split; [auto|]. now apply S.
Qed.
Print Assumptions C100_valid_iff_symmetric.

(** With METIS trusted on the graphs it accepts only, the result for a matrix of symmetric pattern is a permutation. *)
Theorem C100_perm_general : forall (V : Type) (DV : Dflt V) (node_nd : nat -> list nat -> list nat -> list nat) (A : csc V),
  (forall n p i, metis_graph n p i -> is_perm n (node_nd n p i)) ->
  mat_ok A -> cm A = cn A -> 0 < cn A ->
  (forall u v, u < cn A -> v < cn A -> entry (cp A) (ci A) u v -> entry (cp A) (ci A) v u) ->
  exists perm, metis_perm_general node_nd A = Ok perm /\ is_perm (cn A) perm.
Proof.
  intros V DV nd A HM HA Hsq Hn HS. destruct (C100_valid_iff_symmetric V DV A HA Hsq Hn) as (p & i & E & [_ G]).
  specialize (HM (cn A) p i (G HS)). unfold metis_perm_general. rewrite E. cbn [bind].
  assert (L : length (nd (cn A) p i) = cn A) by (apply is_perm_Permutation in HM; apply Permutation_length in HM; now rewrite seq_length in HM).
  assert (H : wp (copy_out (cn A) (nd (cn A) p i) (repeat 0 (cn A))) (fun r => r = nd (cn A) p i)).
  { apply copy_out_wp; [lia|now rewrite repeat_length|]. rewrite <- L at 1. apply firstn_all. }
  apply wp_ok in H. destruct H as (r & -> & ->). eauto.
Qed.
Print Assumptions C100_perm_general.

(** The parts are those of METIS, renumbered so that (if a label is at most n) the smallest is 0; METIS is given as the weight of
    a node one more than the number of entries of its column. *)
Theorem C100_partition_general : forall (V : Type) (DV : Dflt V) kway (A : csc V) k,
  (forall n p i w k, metis_graph n p i -> length (kway n p i w k) = n /\ forall v, In v (kway n p i w k) -> (0 <= v < Z.of_nat k)%Z) ->
  mat_ok A -> cm A = cn A -> 0 < cn A ->
  (forall u v, u < cn A -> v < cn A -> entry (cp A) (ci A) u v -> entry (cp A) (ci A) v u) -> k <= cn A + 1 ->
  exists p i part, metis_graph (cn A) p i /\ metis_partition_general kway A k = Ok part /\
    let w := map (fun u => 1 + (cp A).[S u] - (cp A).[u]) (seq 0 (cn A)) in
    let z := kway (cn A) p i (Some w) k in
    length part = cn A /\ (forall v, In v part -> (0 <= v < Z.of_nat k)%Z) /\ In 0%Z part /\
    (exists d, forall u, u < cn A -> part.[u] = (z.[u] - d)%Z).
Proof.
  intros V DV kway A k HM HA Hsq Hn HS Hk.
  set (EC := fun u (Hu : u < cn A) => eq_trans (aget_map (offrow A) (seq 0 (cn A)) u ltac:(rewrite seq_length; exact Hu)) (f_equal (offrow A) (aget_seq 0 (cn A) u Hu)) : (map (offrow A) (seq 0 (cn A))).[u] = offrow A u).
  assert (H : wp (metis_partition_general kway A k) (fun part => exists p i, metis_graph (cn A) p i /\
    let w := map (fun u => 1 + (cp A).[S u] - (cp A).[u]) (seq 0 (cn A)) in
    let z := kway (cn A) p i (Some w) k in part = map (fun v => (v - zmin (Z.of_nat (cn A)) (firstn (cn A) z))%Z) (firstn (cn A) z))).
  { apply partition_general_wp; auto. intros p i R Lp Li. cbv zeta.
    assert (Lc : length (concat (map (offrow A) (seq 0 (cn A)))) <= length i) by (pose proof (offrow_length A HA Hsq Hn); lia).
    assert (G : metis_graph (cn A) p i).
    { assert (H : forall u v, u < cn A -> (entry p i u v <-> v < cn A /\ u <> v /\ entry (cp A) (ci A) v u)).
      { intros u v Hu. rewrite (rep_entry (cn A) (map (offrow A) (seq 0 (cn A)))) by (auto; now rewrite map_length, seq_length). rewrite (EC u Hu). rewrite offrow_In. tauto. }
      split.
      - apply (rep_wf _ (map (offrow A) (seq 0 (cn A)))); auto; [now rewrite map_length, seq_length|]. intros u v Hu Hv. rewrite (EC u Hu) in Hv. apply offrow_In in Hv. tauto.
      - intros u v Hu He. apply H in He; auto. destruct He as (Hv & Hne & He). split; [auto|]. apply H; [auto|]. split; [auto|]. split; [auto|]. now apply HS. }
    split; [destruct (HM (cn A) p i (Some (map (fun u => 1 + (cp A).[S u] - (cp A).[u]) (seq 0 (cn A)))) k G) as [-> _]; auto|].
    exists p, i. split; [auto|reflexivity]. }
  apply wp_ok in H. destruct H as (part & E & p & i & G & Hp). cbv zeta in Hp. exists p, i, part. split; [auto|]. split; [auto|]. cbv zeta.
  destruct (HM (cn A) p i (Some (map (fun u => 1 + (cp A).[S u] - (cp A).[u]) (seq 0 (cn A)))) k G) as [Lz Rz].
  set (z := kway _ _ _ _ _) in *. rewrite (firstn_all2 z) in Hp by lia.
  assert (ZM : forall l m, (forall v, In v l -> (v <= m)%Z) -> l <> [] -> In (zmin m l) l /\ forall v, In v l -> (zmin m l <= v)%Z).
  { clear. intros l m Hm Hl. assert (A : forall l m, (forall v, In v l -> (zmin m l <= v)%Z) /\ (zmin m l <= m)%Z /\ (zmin m l = m \/ In (zmin m l) l)).
    { clear. induction l as [|a l IH] using rev_ind; intros m; [simpl; split; [tauto|split; [lia|auto]]|]. rewrite zmin_snoc. destruct (IH m) as (I1 & I2 & I3).
      split; [|split; [lia|]].
      - intros v Hv. apply in_app_or in Hv. destruct Hv as [Hv|[<-|[]]]; [specialize (I1 v Hv); lia|lia].
      - destruct (Z.min_spec (zmin m l) a) as [[_ ->]|[_ ->]]; [|right; apply in_or_app; right; now left]. destruct I3; [auto|right; apply in_or_app; auto]. }
    destruct (A l m) as (A1 & A2 & A3). split; [|auto]. destruct A3 as [A3|]; [|auto].
    destruct l as [|a l]; [congruence|]. specialize (A1 a ltac:(now left)). specialize (Hm a ltac:(now left)). assert (zmin m (a :: l) = a) by lia. rewrite H. now left. }
  destruct (ZM z (Z.of_nat (cn A))) as [Z1 Z2]. { intros v Hv. specialize (Rz v Hv). lia. } { intros E0. rewrite E0 in Lz. simpl in Lz. lia. }
  set (d := zmin (Z.of_nat (cn A)) z) in *. subst part. split; [now rewrite map_length|]. split; [|split].
  - intros v Hv. apply in_map_iff in Hv. destruct Hv as (y & <- & Hy). pose proof (Rz y Hy). specialize (Z2 y Hy). pose proof (Rz d Z1). lia.
  - apply in_map_iff. exists d. split; [lia|auto].
  - exists d. intros u Hu. rewrite aget_map by lia. auto.
Qed.
Print Assumptions C100_partition_general.

Example C100_applies : let A := mkCSC 3 3 7 true 0%Z [0;2;5;7] [0;1;0;1;2;1;2] ([] : list Z) in
  mat_ok A /\ general_graph A = Ok ([0;1;3;4], [1;0;2;1;0;0;0]).
Proof.
  cbn zeta. split; [|reflexivity]. split; [|split; [cbn; lia|cbn; discriminate]]. cbn [cm cn cp ci]. rewrite wf_mat_csc. now apply wf_cscb_ok.
Qed.

(** ** C101: the graph of a matrix stored by one triangle has one slot too many in every node.

    The diagonal is counted but not stored: with one diagonal entry in each column every node has its neighbours and then a slot that is
    never written, holding 0. *)
Theorem C101_symmetric_graph : forall n Ap Ai,
  wf_csc n Ap Ai -> one_diag n Ap Ai ->
  exists p i, symmetric_graph n Ap.[n] Ap Ai = Ok (p, i) /\ wf_csc n p i /\ p.[n] = length i /\
    forall u, u < n -> exists nb, slice i p.[u] p.[S u] = nb ++ [0] /\
      forall v, In v nb <-> u <> v /\ (entry Ap Ai u v \/ v < n /\ entry Ap Ai v u).
Proof.
  intros n Ap Ai W HD.
  assert (H : wp (symmetric_graph n Ap.[n] Ap Ai) (fun r => let '(p, fi) := r in length p = n + 1 /\ p.[0] = 0 /\ length fi = p.[n] /\
     (forall x, x < n -> p.[S x] = p.[x] + length (adjl n Ap Ai Ap.[n] x) + 1) /\
     (forall x t, x < n -> t <= length (adjl n Ap Ai Ap.[n] x) -> fi.[p.[x] + t] = (adjl n Ap Ai Ap.[n] x ++ [0]).[t]))).
  { apply symmetric_graph_wp; auto. }
  apply wp_ok in H. destruct H as ([p i] & E & P1 & P2 & P3 & P4 & P5). exists p, i. split; [auto|].
  assert (PM : forall u, u < n -> p.[u] <= p.[S u]) by (intros x Hx; rewrite P4 by auto; lia).
  assert (SL : forall u, u < n -> slice i p.[u] p.[S u] = adjl n Ap Ai Ap.[n] u ++ [0]).
  { intros u Hu. assert (p.[S u] <= p.[n]) by (apply (mono_le (aget p) n); auto; lia).
    pose proof (P4 u Hu). apply list_ext; [rewrite slice_length, app_length by lia; simpl; lia|]. intros t Ht. rewrite slice_length in Ht by lia.
    rewrite aget_slice by lia. apply P5; [auto|lia]. }
  split; [|split; [auto|]].
  - split; [lia|]. split; [auto|]. split; [auto|]. split; [lia|]. intros k Hk. destruct (col_of_in n p k P2 PM Hk) as [Hc Hin].
    set (u := col_of n p k) in *. unfold in_col in Hin.
    assert (Hi : In i.[k] (adjl n Ap Ai Ap.[n] u ++ [0])).
    { rewrite <- SL by auto. assert (p.[S u] <= p.[n]) by (apply (mono_le (aget p) n); auto; lia). apply In_slice; [now apply PM|lia|exists k; auto]. }
    apply in_app_or in Hi. destruct Hi as [Hi|[<-|[]]]; [|lia]. apply adjl_In in Hi; auto. destruct Hi as [_ [(j & Hj & <-)|[]]]; [|auto].
    destruct W as (W1 & W2 & W3 & W4 & W5). apply W5. assert (Ap.[S u] <= Ap.[n]) by (apply (mono_le (aget Ap) n); auto; lia). lia.
  - intros u Hu. exists (adjl n Ap Ai Ap.[n] u). split; [auto|]. intros v. now apply adjl_In.
Qed.
Print Assumptions C101_symmetric_graph.

(** Hence METIS is never given a graph it accepts: node 0 has an edge to itself, and every other node has an edge to node 0, while node 0
    has one back only if the matrix has the entry. *)
Theorem C101_never_valid : forall n Ap Ai,
  wf_csc n Ap Ai -> one_diag n Ap Ai -> 0 < n ->
  exists p i, symmetric_graph n Ap.[n] Ap Ai = Ok (p, i) /\ ~ metis_graph n p i /\
    (forall u, u < n -> entry p i u 0) /\
    (forall u, 0 < u < n -> (entry p i 0 u <-> entry Ap Ai 0 u \/ entry Ap Ai u 0)).
Proof.
  intros n Ap Ai W HD Hn. destruct (C101_symmetric_graph n Ap Ai W HD) as (p & i & E & WP & PN & H). exists p, i. split; [auto|].
  destruct WP as (P1 & P2 & P3 & P4 & P5).
  assert (HE : forall u v, u < n -> (entry p i u v <-> In v (slice i p.[u] p.[S u]))).
  { intros u v Hu. rewrite In_slice; [reflexivity|auto|]. rewrite <- PN. apply (mono_le (aget p) n); auto; lia. }
  assert (H0 : forall u, u < n -> entry p i u 0).
  { intros u Hu. apply HE; [auto|]. destruct (H u Hu) as (nb & -> & _). apply in_or_app. right. now left. }
  split; [|split; [auto|]].
  - intros [_ G]. destruct (G 0 0 Hn (H0 0 Hn)) as [A _]. auto.
  - intros u Hu. rewrite HE by auto. destruct (H 0 Hn) as (nb & -> & Hnb). rewrite in_app_iff, Hnb. cbn [In]. split.
    + intros [(_ & [A|[_ A]])|[A|[]]]; [auto|auto|lia].
    + intros A. left. split; [lia|]. destruct A; [auto|right; split; [lia|auto]].
Qed.
Print Assumptions C101_never_valid.

(** A triangle without a diagonal: the array of neighbours is too short by the number of columns, and is overrun. *)
Theorem C101_no_diagonal_refuted : wf_csc 3 [0;1;2;2] [1;2] /\ symmetric_graph 3 2 [0;1;2;2] [1;2] = Err OOB.
Proof. split; [now apply wf_cscb_ok|reflexivity]. Qed.
(** fewer entries than half the columns: a negative array size *)
Theorem C101_few_entries : forall n nnz Ap Ai, 2 * nnz < n -> symmetric_graph n nnz Ap Ai = Err Throw.
Proof. intros n nnz Ap Ai H. unfold symmetric_graph. now replace (2 * nnz <? n) with true by lia. Qed.
Print Assumptions C101_no_diagonal_refuted. Print Assumptions C101_few_entries.

Example C101_applies : wf_csc 4 [0;2;4;6;7] [0;1;1;2;2;3;3] /\ one_diag 4 [0;2;4;6;7] [0;1;1;2;2;3;3] /\
  symmetric_graph 4 7 [0;2;4;6;7] [0;1;1;2;2;3;3] = Ok ([0;2;5;8;10], [1;0;0;2;0;1;3;0;2;0]).
Proof.
  assert (W : wf_csc 4 [0;2;4;6;7] [0;1;1;2;2;3;3]) by now apply wf_cscb_ok.
  split; [auto|]. split; [|reflexivity]. apply one_diag_of_first. now apply diag_firstb_ok.
Qed.

(** ** C102: the parts of a coarsened matrix are given to the wrong nodes *)
Theorem C102_coarsened : forall (V : Type) (DV : Dflt V) kway (A : csc V) k coarsen,
  (forall n p i w k, n <= length (kway n p i w k)) ->
  mat_ok A -> cm A = cn A -> 0 < cn A -> (0 <= cst A)%Z -> 1 <= coarsen ->
  exists m Bp Bi cors, coarsen_k_times (cn A) (cnnz A) (cp A) (ci A) coarsen = Ok (m, (Bp, Bi), Bp.[m]) /\
    metis_partition_general kway (mkCSC m m Bp.[m] false (cst A) Bp Bi (repeat dflt (cnnz A))) k = Ok cors /\ length cors = m /\
    (cn A < coarsen -> metis_partition_coarsened kway A k coarsen = Err OOB) /\
    (coarsen <= cn A -> exists part, metis_partition_coarsened kway A k coarsen = Ok part /\ length part = cn A /\
    forall j, j < cn A -> part.[j] = if j <? m - 1 + coarsen then cors.[Nat.min j (m - 1)] else 0%Z).
Proof.
  intros V DV kway A k co HK HA Hsq Hn Hst Hco. pose proof HA as (W & HN & HX). rewrite Hsq, wf_mat_csc in W.
  destruct (C99_coarsen (cn A) (cnnz A) (cp A) (ci A) co W HN Hco Hn) as (m & Bp & Bi & E & Hm & WB & LB & HE & _).
  set (B := mkCSC m m Bp.[m] false (cst A) Bp Bi (repeat dflt (cnnz A))).
  assert (Hm0 : 0 < m) by nia.
  assert (HB : mat_ok B).
  { unfold B. split; [cbn [cm cn cp ci]; now rewrite wf_mat_csc|]. split; [auto|]. intros _. cbn [cp cn cx]. rewrite repeat_length. destruct WB as (_ & _ & _ & B4 & _). lia. }
  assert (H : wp (metis_partition_general kway B k) (fun cors => length cors = m)).
  { apply partition_general_wp; auto. intros p i _ _ _. cbv zeta. split; [apply HK|]. rewrite map_length, firstn_length. unfold B; cbn [cn]. pose proof (HK m p i (Some (map (fun u => 1 + (cp B).[S u] - (cp B).[u]) (seq 0 (cn B)))) k). unfold B in H; cbn [cn cp] in H. cbn [cp]. lia. }
  apply wp_ok in H. destruct H as (cors & EC & LC). exists m, Bp, Bi, cors. split; [auto|]. split; [auto|]. split; [auto|].
  unfold metis_partition_coarsened. rewrite E. cbn [bind]. replace (cst A <? 0)%Z with false by lia. fold B. rewrite EC. cbn [bind]. split.
  - intros HL. apply spread_oob; lia.
  - intros HL. assert (Hr : m - 1 + co <= cn A) by nia.
    assert (H : wp (spread_parts (cn A) m co cors) (fun part => length part = cn A /\ forall j, j < cn A -> part.[j] = if j <? m - 1 + co then cors.[Nat.min j (m - 1)] else 0%Z)).
    { apply spread_wp; auto; [lia|]. intros part P1 P2 P3. split; [auto|]. intros j Hj. destruct (Nat.ltb_spec j (m - 1 + co)); [now apply P2|apply P3; auto]. }
    apply wp_ok in H. destruct H as (part & -> & H). exists part. split; [auto|exact H].
Qed.
Print Assumptions C102_coarsened.

(** With a factor of 1 the parts are right; with any other factor that fits, node 1, a member of coarse node 0, gets the part of coarse
    node 1 if there is one. *)
Theorem C102_factor_one : forall (V : Type) (DV : Dflt V) kway (A : csc V) k,
  (forall n p i w k, n <= length (kway n p i w k)) ->
  mat_ok A -> cm A = cn A -> 0 < cn A -> (0 <= cst A)%Z ->
  exists Bp Bi cors, metis_partition_general kway (mkCSC (cn A) (cn A) Bp.[cn A] false (cst A) Bp Bi (repeat dflt (cnnz A))) k = Ok cors /\
    (forall J I, J < cn A -> (entry Bp Bi J I <-> entry (cp A) (ci A) J I)) /\ metis_partition_coarsened kway A k 1 = Ok cors.
Proof.
  intros V DV kway A k HK HA Hsq Hn Hst. pose proof HA as (W & HN & HX). rewrite Hsq, wf_mat_csc in W.
  destruct (C99_coarsen (cn A) (cnnz A) (cp A) (ci A) 1 W HN ltac:(lia) Hn) as (m' & Bp' & Bi' & E' & Hm & WB & LB & HE & _).
  destruct (C102_coarsened V DV kway A k 1 HK HA Hsq Hn Hst ltac:(lia)) as (m & Bp & Bi & cors & E & EC & LC & _ & H).
  rewrite E' in E. injection E as -> -> -> _. assert (Em : m = cn A) by lia. rewrite Em in *. destruct (H ltac:(lia)) as (part & EP & LP & HP).
  exists Bp, Bi, cors. split; [auto|]. split.
  - intros J I HJ. rewrite HE by auto. split.
    + intros (j & i & _ & Ej & Ei & Hji). rewrite Nat.div_1_r in *. now subst.
    + intros Hji. exists J, I. rewrite !Nat.div_1_r. auto.
  - rewrite EP. f_equal. apply list_ext; [lia|]. intros j Hj. rewrite HP by lia. replace (j <? cn A - 1 + 1) with true by lia. f_equal. lia.
Qed.
Print Assumptions C102_factor_one.

Theorem C102_wrong_node : forall (V : Type) (DV : Dflt V) kway (A : csc V) k coarsen,
  (forall n p i w k, n <= length (kway n p i w k)) ->
  mat_ok A -> cm A = cn A -> 0 < cn A -> (0 <= cst A)%Z -> 2 <= coarsen < cn A ->
  exists m B cors part, metis_partition_general kway B k = Ok cors /\ cn B = m /\ length cors = m /\ (m - 1) * coarsen < cn A <= m * coarsen /\
    (forall J I, J < m -> (entry (cp B) (ci B) J I <-> exists j i, j < cn A /\ j / coarsen = J /\ i / coarsen = I /\ entry (cp A) (ci A) j i)) /\
    metis_partition_coarsened kway A k coarsen = Ok part /\ part.[0] = cors.[0] /\ 1 / coarsen = 0 /\ part.[1] = cors.[1].
Proof.
  intros V DV kway A k co HK HA Hsq Hn Hst Hco. pose proof HA as (W & HN & HX). rewrite Hsq, wf_mat_csc in W.
  destruct (C99_coarsen (cn A) (cnnz A) (cp A) (ci A) co W HN ltac:(lia) Hn) as (m' & Bp' & Bi' & E' & Hm & WB & LB & HE & _).
  destruct (C102_coarsened V DV kway A k co HK HA Hsq Hn Hst ltac:(lia)) as (m & Bp & Bi & cors & E & EC & LC & _ & H).
  rewrite E' in E. injection E as -> -> -> _. destruct (H ltac:(lia)) as (part & EP & LP & HP).
  exists m, (mkCSC m m Bp.[m] false (cst A) Bp Bi (repeat dflt (cnnz A))), cors, part.
  split; [auto|]. split; [auto|]. split; [auto|]. split; [auto|]. split; [exact HE|]. split; [auto|].
  split; [rewrite HP by lia; replace (0 <? m - 1 + co) with true by lia; reflexivity|]. split; [apply Nat.div_small; lia|].
  assert (2 <= m) by nia. rewrite HP by lia. replace (1 <? m - 1 + co) with true by lia. f_equal. lia.
Qed.
Print Assumptions C102_wrong_node.

(** a concrete case: the nodes 1 and 2 are in the coarse nodes 0 and 1 *)
Theorem C102_coarsened_refuted : exists kway : nat -> list nat -> list nat -> option (list nat) -> nat -> list Z,
  (forall n p i w k, length (kway n p i w k) = n) /\
  let A := mkCSC 4 4 4 false 0%Z [0;1;2;3;4] [0;1;2;3] [1;1;1;1]%Z in
  coarsen_k_times 4 4 (cp A) (ci A) 2 = Ok (2, ([0;1;2], [0;1;0;0]), 2) /\
  metis_partition_coarsened kway A 2 2 = Ok [0;1;1;0]%Z /\
  metis_partition_coarsened kway A 2 5 = Err OOB.
Proof.
  exists (fun n _ _ _ _ => map Z.of_nat (seq 0 n)). split; [intros; now rewrite map_length, seq_length|]. repeat split; vm_compute; reflexivity.
Qed.
Print Assumptions C102_coarsened_refuted.
