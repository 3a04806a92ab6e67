(** C153: metis_partitioning on every pattern marked symmetric. *)
From Coq Require Import ZifyBool ZifyNat.
From Verif Require Import Base Lib Lib2 Lib3 Spec Check SpecMat SpecSym M_Mat M_Sym L_Mat L_Mat2 L_Sym L_Sym2 L_Sym4 P_Mat M_Metis L_Metis2 P_Metis P_Sym M_Metis2 P_Metis2.

Section Diag.
Context {V : Type} {DV : Dflt V}.

(** the entries of a column that are in row [r] *)
Definition in_row (r : nat) (l : list (nat * V)) : list (nat * V) := filter (fun e => fst e =? r) l.

Lemma in_row_fst r l : length (in_row r l) = length (filter (fun a => a =? r) (map fst l)).
Proof. induction l as [|e t IH]; [reflexivity|]. unfold in_row in *. cbn [filter map]. destruct (fst e =? r); cbn [length]; lia. Qed.

Lemma filter_seq_one (f : nat -> bool) a m : length (filter f (seq a m)) = 1 <->
  exists k, (a <= k < a + m /\ f k = true) /\ forall k', a <= k' < a + m -> f k' = true -> k' = k.
Proof.
  split.
  - intros H. destruct (filter f (seq a m)) as [|k [|? ?]] eqn:E; cbn [length] in H; try lia.
    assert (G : forall x, In x (filter f (seq a m)) <-> x = k) by (intros x; rewrite E; cbn [In]; intuition auto).
    exists k. split.
    + assert (In k (filter f (seq a m))) as Hk by (apply G; auto). apply filter_In in Hk. rewrite in_seq in Hk. tauto.
    + intros k' H1 H2. apply G. apply filter_In. rewrite in_seq. auto.
  - intros (k & [Hk Hf] & U).
    assert (Permutation (filter f (seq a m)) [k]) as P; [|apply Permutation_length in P; exact P].
    apply NoDup_Permutation; [apply NoDup_filter, seq_NoDup|repeat constructor; cbn [In]; tauto|]. intros x. rewrite filter_In, in_seq. cbn [In]. split.
    + intros [H1 H2]. left. symmetry. now apply U.
    + intros [<-|[]]. auto.
Qed.

Lemma one_diag_in_row n p i (x : list V) : (forall u, u < n -> p.[u] <= p.[S u]) ->
  one_diag n p i <-> forall u, u < n -> length (in_row u (col p i x u)) = 1.
Proof.
  intros M. unfold one_diag.
  assert (G : forall u, u < n -> length (in_row u (col p i x u)) = 1 <-> exists k, (p.[u] <= k < p.[S u] /\ i.[k] = u) /\ forall k', p.[u] <= k' < p.[S u] -> i.[k'] = u -> k' = k).
  { intros u Hu. pose proof (M u Hu). rewrite in_row_fst. unfold col. rewrite map_map. cbn [fst].
    replace (length (filter (fun a => a =? u) (map (fun k => i.[k]) (seq p.[u] (p.[S u] - p.[u]))))) with (length (filter (fun k => i.[k] =? u) (seq p.[u] (p.[S u] - p.[u])))).
    2:{ generalize (seq p.[u] (p.[S u] - p.[u])). intros l. induction l as [|k t IH]; [reflexivity|]. cbn [filter map]. destruct (i.[k] =? u); cbn [length]; lia. }
    rewrite filter_seq_one. replace (p.[u] + (p.[S u] - p.[u])) with p.[S u] by lia. split.
    - intros (k & [H1 H2] & U). exists k. split; [split; auto; lia|]. intros k' H3 H4. apply U; auto. lia.
    - intros (k & [H1 H2] & U). exists k. split; [split; auto; lia|]. intros k' H3 H4. apply U; auto. lia. }
  split; intros H u Hu; apply G; auto.
Qed.

(** only one index contributes *)
Lemma flat_map_one {B} (f : nat -> list B) n c : c < n -> (forall i, i < n -> i <> c -> f i = []) -> flat_map f (seq 0 n) = f c.
Proof.
  intros Hc H. replace (seq 0 n) with (seq 0 c ++ c :: seq (S c) (n - S c)).
  2:{ replace n with (c + S (n - S c)) at 2 by lia. rewrite seq_app. reflexivity. }
  rewrite flat_map_app. cbn [flat_map]. rewrite !flat_map_nil; [now rewrite app_nil_r| |]; intros i Hi; apply in_seq in Hi; apply H; lia.
Qed.

Lemma full_col_diag n (cols : nat -> list (nat * V)) c : c < n -> in_row c (full_col n cols c) = in_row c (cols c).
Proof.
  intros Hc. unfold full_col, in_row. rewrite filter_flat_map. rewrite (flat_map_one _ n c); auto.
  - generalize (cols c). intros l. induction l as [|e t IH]; [reflexivity|]. cbn [flat_map]. rewrite filter_app, IH. rewrite Nat.eqb_refl. cbn [app filter].
    destruct (fst e =? c) eqn:E; cbn [negb andb app filter]; reflexivity.
  - intros i Hi Hne. generalize (cols i). intros l. induction l as [|e t IH]; [reflexivity|]. cbn [flat_map]. rewrite filter_app, IH.
    replace (i =? c) with false by lia. cbn [app]. destruct (negb (fst e =? i) && (fst e =? c)); cbn [filter fst]; [|reflexivity]. replace (i =? c) with false by lia. reflexivity.
Qed.

Lemma sym_col_diag up n q qi (cols : nat -> list (nat * V)) c : perm_pair n q qi -> c < n -> (forall a e, a < n -> In e (cols a) -> fst e < n) ->
  length (in_row c (sym_col up n q qi cols c)) = length (in_row (q c) (cols (q c))).
Proof.
  intros [P1 P2] Hc HB. unfold sym_col, in_row. rewrite filter_flat_map.
  assert (HQ : forall j, j < n -> q j < n /\ qi (q j) = j) by auto.
  rewrite (flat_map_one _ n c); auto.
  - assert (HL : forall e, In e (cols (q c)) -> fst e < n) by (intros e He; apply (HB (q c)); auto; now apply P1).
    revert HL. generalize (cols (q c)). intros l. induction l as [|e t IH]; intros HL; [reflexivity|]. cbn [flat_map filter]. rewrite filter_app, app_length, IH by (intros; apply HL; right; auto).
    assert (He : fst e < n) by (apply HL; left; auto). destruct (P2 _ He) as [E1 E2]. destruct (P1 _ Hc) as [C1 C2].
    destruct (Nat.eqb_spec (fst e) (q c)) as [E|E].
    + rewrite E, C2. destruct up; rewrite Nat.leb_refl, ?Nat.min_id, ?Nat.max_id, Nat.eqb_refl; cbn [filter fst]; rewrite ?Nat.min_id, ?Nat.max_id, Nat.eqb_refl; cbn [length]; lia.
    + assert (qi (fst e) <> c) by (intros Hx; apply E; rewrite <- Hx; auto).
      destruct (if up then fst e <=? q c else q c <=? fst e); [|reflexivity].
      destruct up.
      * destruct (Nat.eqb_spec (Nat.min (qi (fst e)) c) c); [|reflexivity]. cbn [filter fst]. replace (Nat.max (qi (fst e)) c =? c) with false by lia. reflexivity.
      * destruct (Nat.eqb_spec (Nat.max (qi (fst e)) c) c); [|reflexivity]. cbn [filter fst]. replace (Nat.min (qi (fst e)) c =? c) with false by lia. reflexivity.
  - intros j Hj Hne. generalize (cols (q j)). intros l. induction l as [|e t IH]; [reflexivity|]. cbn [flat_map]. rewrite filter_app, IH, app_nil_r.
    destruct (if up then fst e <=? q j else q j <=? fst e); [|reflexivity]. destruct up.
    + destruct (Nat.eqb_spec (Nat.min (qi (fst e)) j) c); [|reflexivity]. cbn [filter fst]. replace (Nat.max (qi (fst e)) j =? c) with false by lia. reflexivity.
    + destruct (Nat.eqb_spec (Nat.max (qi (fst e)) j) c); [|reflexivity]. cbn [filter fst]. replace (Nat.min (qi (fst e)) j =? c) with false by lia. reflexivity.
Qed.

(** the positions of the other triangle *)
Lemma sym_col_rows (up : bool) n q qi (cols : nat -> list (nat * V)) c r : perm_pair n q qi -> c < n -> (forall a e, a < n -> In e (cols a) -> fst e < n) ->
  In r (map fst (sym_col up n q qi cols c)) <->
  (if up then c <= r else r <= c) /\ r < n /\
  ((In (q r) (map fst (cols (q c))) /\ (if up then q r <= q c else q c <= q r)) \/ (In (q c) (map fst (cols (q r))) /\ (if up then q c <= q r else q r <= q c))).
Proof.
  intros [P1 P2] Hc HB. unfold sym_col. rewrite in_map_iff. split.
  - intros (x & <- & Hx). apply in_flat_map in Hx. destruct Hx as (j & Hj & Hx). apply in_seq in Hj. apply in_flat_map in Hx. destruct Hx as (e & He & Hx).
    assert (HE : fst e < n) by (apply (HB (q j)); auto; apply P1; lia). destruct (P2 _ HE) as [E1 E2]. assert (Hj' : j < n) by lia. destruct (P1 _ Hj') as [J1 J2].
    assert (IN : In (fst e) (map fst (cols (q j)))) by (apply in_map; auto). rewrite <- E2 in IN.
    destruct (if up then fst e <=? q j else q j <=? fst e) eqn:T; [|destruct Hx].
    destruct up.
    + destruct (Nat.eqb_spec (Nat.min (qi (fst e)) j) c) as [M|M]; [|destruct Hx]. destruct Hx as [<-|[]]. cbn [fst]. split; [lia|]. split; [lia|].
      destruct (Nat.leb_spec (qi (fst e)) j).
      * right. replace (Nat.max (qi (fst e)) j) with j by lia. replace c with (qi (fst e)) by lia. split; [auto|]. rewrite E2. lia.
      * left. replace (Nat.max (qi (fst e)) j) with (qi (fst e)) by lia. replace c with j by lia. split; [auto|]. rewrite E2. lia.
    + destruct (Nat.eqb_spec (Nat.max (qi (fst e)) j) c) as [M|M]; [|destruct Hx]. destruct Hx as [<-|[]]. cbn [fst]. split; [lia|]. split; [lia|].
      destruct (Nat.leb_spec (qi (fst e)) j).
      * left. replace (Nat.min (qi (fst e)) j) with (qi (fst e)) by lia. replace c with j by lia. split; [auto|]. rewrite E2. lia.
      * right. replace (Nat.min (qi (fst e)) j) with j by lia. replace c with (qi (fst e)) by lia. split; [auto|]. rewrite E2. lia.
  - intros (O & Hr & H). destruct (P1 _ Hc) as [C1 C2]. destruct (P1 _ Hr) as [R1 R2].
    destruct H as [[H T]|[H T]]; apply in_map_iff in H; destruct H as (e & E & He).
    + exists (r, snd e). split; [reflexivity|]. apply in_flat_map. exists c. split; [apply in_seq; lia|]. apply in_flat_map. exists e. split; [auto|]. rewrite E, R2.
      destruct up; [replace (q r <=? q c) with true by lia; replace (Nat.min r c =? c) with true by lia; replace (Nat.max r c) with r by lia; left; reflexivity|].
      replace (q c <=? q r) with true by lia. replace (Nat.max r c =? c) with true by lia. replace (Nat.min r c) with r by lia. left; reflexivity.
    + exists (r, snd e). split; [reflexivity|]. apply in_flat_map. exists r. split; [apply in_seq; lia|]. apply in_flat_map. exists e. split; [auto|]. rewrite E, C2.
      destruct up; [replace (q c <=? q r) with true by lia; replace (Nat.min c r =? c) with true by lia; replace (Nat.max c r) with r by lia; left; reflexivity|].
      replace (q r <=? q c) with true by lia. replace (Nat.max c r =? c) with true by lia. replace (Nat.min c r) with r by lia. left; reflexivity.
Qed.

Lemma rows_entry p i (x : list V) c r : p.[c] <= p.[S c] -> In r (map fst (col p i x c)) <-> entry p i c r.
Proof.
  intros M. unfold col, entry. rewrite map_map, in_map_iff. cbn [fst]. split; intros (k & A & B); exists k.
  - apply in_seq in B. split; auto. lia.
  - split; [auto|]. apply in_seq. lia.
Qed.
End Diag.

(** For every pattern marked symmetric with one diagonal entry per column, and every ordering METIS answers with: the matrix that comes back is
    the whole symmetric matrix in the new order, [q j] being the old index of row [j]; the parts are those of its rows, unchanged.  [q] itself is
    not returned.  The list of node [u] is its neighbours and then a spurious 0, so METIS is given a graph it does not accept. *)
Theorem C153_pattern : forall (V : Type) (DV : Dflt V) node_nd kway (A : csc V) k,
  (forall n p i, is_perm n (node_nd n p i)) -> (forall n p i w k, length (kway n p i w k) = n) ->
  mat_ok A -> cpat A = true -> cst A <> 0%Z -> cm A = cn A -> 0 < cn A -> cnnz A = (cp A).[cn A] -> one_diag (cn A) (cp A) (ci A) ->
  let n := cn A in
  let stored a b := entry (cp A) (ci A) a b /\ if (0 <? cst A)%Z then b <= a else a <= b in
  exists C part q qi p i, metis_partitioning node_nd kway A k = Ok (C, part) /\ cm C = n /\ cn C = n /\ cst C = 0%Z /\ perm_pair n q qi /\
    (exists pA iA, symmetric_graph n (cnnz A) (cp A) (ci A) = Ok (pA, iA) /\ forall j, j < n -> q j = (node_nd n pA iA).[j]) /\
    (forall u v, u < n -> v < n -> (entry (cp C) (ci C) u v <-> stored (q u) (q v) \/ stored (q v) (q u))) /\
    symmetric_graph n (cnnz C) (cp C) (ci C) = Ok (p, i) /\ part = kway n p i None k /\ ~ metis_graph n p i /\
    (forall u, u < n -> exists nb, slice i p.[u] p.[S u] = nb ++ [0] /\ forall v, In v nb <-> u <> v /\ v < n /\ entry (cp C) (ci C) u v).
Proof.
  intros V DV nd kway A k HN HK MO HP HS SQ Hn NZ OD n stored. fold n in NZ.
  pose proof MO as (W & M2 & M3). assert (WA : wf_csc n (cp A) (ci A)) by (rewrite SQ in W; exact W).
  destruct (C101_symmetric_graph n (cp A) (ci A) WA OD) as (pA & iA & EA & _ & _ & _). rewrite <- NZ in EA.
  set (P := nd n pA iA). assert (PP0 : is_perm n P) by apply HN. pose proof PP0 as (LP & ND & PI).
  assert (EP : metis_perm_symmetric nd A = Ok (Some P)).
  { unfold metis_perm_symmetric. replace (cst A =? 0)%Z with false by lia. fold n. rewrite EA. cbn [bind]. fold P.
    assert (H : wp (copy_out n P (repeat 0 n)) (fun r => r = P)) by (apply copy_out_wp; [lia|now rewrite repeat_length|]; rewrite <- LP; apply firstn_all).
    apply wp_ok in H. destruct H as (r & -> & ->). reflexivity. }
  assert (GP : good_prefix n (map Z.of_nat P) n).
  { intros a Ha. rewrite aget_map by lia. assert (P.[a] < n) by (apply PI; apply aget_In; lia). split; [lia|]. intros b Hb. rewrite aget_map by lia. intros E.
    assert (E' : P.[b] = P.[a]) by lia. assert (b = a); [|lia]. apply (is_perm_inj n P); auto; lia. }
  destruct (check_perm_good n (map Z.of_nat P) ltac:(rewrite map_length; lia) GP) as (Pinv & EC & LI & PP & HI).
  set (q := fun j => Z.to_nat (map Z.of_nat P).[j]) in *. set (qi := fun i => Z.to_nat Pinv.[i]) in *.
  assert (GW : wp (transpose_symmetric A (Some (map Z.of_nat P))) (fun r => exists F, r = Some F /\ sym_result q qi A F)).
  { apply (transpose_symmetric_wp A (Some (map Z.of_nat P)) (Some (map Z.of_nat P, Pinv)) q qi); auto.
    - rewrite SQ. fold n. rewrite EC. reflexivity.
    - intros j Hj. cbn [old_col]. rewrite rd_ok by (rewrite map_length; fold n in Hj; lia). reflexivity.
    - intros j Hj. cbn [new_row]. rewrite rd_ok by (fold n in Hj; lia). reflexivity.
    - discriminate.
    - intros F HF. exists F. auto. }
  apply wp_ok in GW. destruct GW as (r & ET & F & -> & HF).
  destruct HF as (R1 & R2 & R3 & R4 & R5 & R6 & R7 & R8 & R9 & R10 & _ & _). fold n in R1, R2, R8, R9, R10.
  set (up := (0 <? cst A)%Z) in *.
  assert (MF : mat_ok F) by (unfold mat_ok; rewrite R1, R2, R3, R7; splits; auto; fold n in M2; [lia|intros _; lia]).
  destruct (C34_make_full_exact V DV F MF) as (C & EM & C1 & C2 & C3 & C4 & C5 & C6 & C7 & C8 & C9); try (rewrite ?R1, ?R2, ?R5, ?R7; fold n in M2; auto; lia).
  rewrite R2 in *.
  assert (HB : forall a e, a < n -> In e (col (cp A) (ci A) (cx A) a) -> fst e < n).
  { intros a e Ha He. unfold n. rewrite <- SQ. apply (col_In_bound _ _ _ _ _ _ _ W Ha He). }
  assert (MA : forall u, u < n -> (cp A).[u] <= (cp A).[S u]) by apply W.
  assert (MFF : forall u, u < n -> (cp F).[u] <= (cp F).[S u]) by apply R8.
  assert (MC : forall u, u < n -> (cp C).[u] <= (cp C).[S u]) by apply C3.
  assert (ODC : one_diag n (cp C) (ci C)).
  { apply (one_diag_in_row n (cp C) (ci C) (cx C) MC). intros u Hu. rewrite C8, full_col_diag by auto. rewrite in_row_fst, R10, <- in_row_fst by auto. rewrite sym_col_diag by auto.
    apply (proj1 (one_diag_in_row n (cp A) (ci A) (cx A) MA) OD). now apply PP. }
  assert (EF : forall c r, c < n -> entry (cp F) (ci F) c r <-> (if up then c <= r else r <= c) /\ r < n /\
     ((entry (cp A) (ci A) (q c) (q r) /\ (if up then q r <= q c else q c <= q r)) \/ (entry (cp A) (ci A) (q r) (q c) /\ (if up then q c <= q r else q r <= q c)))).
  { intros c r Hc. rewrite <- (rows_entry (cp F) (ci F) (cx F)) by auto. rewrite R10 by auto. rewrite sym_col_rows by auto.
    split; intros (X1 & X2 & X3); (split; [auto|]); (split; [auto|]); rewrite ?(rows_entry (cp A) (ci A) (cx A)) in * by (apply MA, PP; auto); auto. }
  assert (ECF : forall u v, u < n -> v < n -> (entry (cp C) (ci C) u v <-> entry (cp F) (ci F) u v \/ (v <> u /\ entry (cp F) (ci F) v u))).
  { intros u v Hu Hv. rewrite <- (rows_entry (cp C) (ci C) (cx C)) by auto. rewrite <- (rows_entry (cp F) (ci F) (cx F) u) by auto. rewrite <- (rows_entry (cp F) (ci F) (cx F) v) by auto. rewrite !in_map_iff. split.
    - intros ([v' x] & E & Hx). cbn [fst] in E. subst v'. apply C9 in Hx; auto. destruct Hx as [Hx|(H1 & H2 & Hx)]; [left; exists (v, x); auto|right]. split; [auto|]. exists (u, x). auto.
    - intros [([v' x] & E & Hx)|(Hne & [u' x] & E & Hx)]; cbn [fst] in E; subst; exists (v, x); (split; [reflexivity|]); apply C9; auto. }
  assert (EN : forall u v, u < n -> v < n -> (entry (cp C) (ci C) u v <-> stored (q u) (q v) \/ stored (q v) (q u))).
  { intros u v Hu Hv. rewrite ECF by auto. rewrite !EF by auto. unfold stored. fold up. split.
    - intros [(_ & _ & H)|(_ & _ & _ & H)]; tauto.
    - intros H. destruct (Nat.eq_dec u v) as [->|Hne]; [left; split; [destruct up; lia|tauto]|].
      destruct up; (destruct (le_lt_dec u v); [|]); [left|right|right|left]; (split; [lia|]); try (split; [lia|]); tauto. }
  assert (WC : wf_csc n (cp C) (ci C)) by exact C3.
  destruct (C101_symmetric_graph n (cp C) (ci C) WC ODC) as (p & i & EG & _ & _ & NB). rewrite <- C4 in EG.
  assert (NV : ~ metis_graph n p i).
  { destruct (C101_never_valid n (cp C) (ci C) WC ODC Hn) as (p' & i' & EG' & NV & _). rewrite <- C4 in EG'. rewrite EG in EG'. injection EG' as <- <-. exact NV. }
  exists C, (kway n p i None k), q, qi, p, i.
  assert (EK : metis_partition_symmetric kway C k = Ok (kway n p i None k)).
  { unfold metis_partition_symmetric. rewrite C2. rewrite EG. cbn [bind].
    assert (H : wp (copy_out n (kway n p i None k) (repeat 0%Z n)) (fun r => r = kway n p i None k)).
    { apply copy_out_wp; [rewrite HK; lia|now rewrite repeat_length|]. rewrite <- (HK n p i None k) at 1. apply firstn_all. }
    apply wp_ok in H. destruct H as (r & -> & ->). reflexivity. }
  splits; auto.
  - unfold metis_partitioning. rewrite HP, EP. cbn [bind]. rewrite ET. cbn [bind]. rewrite EM. cbn [bind]. rewrite EK. reflexivity.
  - exists pA, iA. split; [auto|]. intros j Hj. unfold q. rewrite aget_map by lia. now rewrite Nat2Z.id.
  - intros u Hu. destruct (NB u Hu) as (nb & E & H). exists nb. split; [auto|]. intros v. rewrite H. split.
    + intros (Hne & [He|[Hv He]]).
      * assert (Hv : v < n). { destruct He as (z & Z1 & <-). apply C3. assert ((cp C).[S u] <= (cp C).[n]) by (apply (mono_le (aget (cp C)) n); auto; lia). lia. }
        auto.
      * split; [auto|]. split; [auto|]. apply EN; auto. apply EN in He; auto. tauto.
    + intros (Hne & Hv & He). auto.
Qed.
Print Assumptions C153_pattern.

(** the hypotheses hold and the parts show the graph: the answers of METIS are taken from the neighbour array *)
Example C153_pattern_case : let A := mkCSC 3 3 5 true (-1)%Z [0;2;4;5] [0;1;1;2;2] ([] : list Z) in
  mat_ok A /\ one_diag (cn A) (cp A) (ci A) /\
  metis_partitioning (fun n _ _ => rev (seq 0 n)) (fun n p _ _ _ => map Z.of_nat (firstn n (tl p))) A 2 =
    Ok (mkCSC 3 3 7 false 0%Z [0;2;5;7] [0;1;1;0;2;2;1;0;0;0] [0;0;0;0;0;0;0;0;0;0]%Z, [3; 8; 11]%Z).
Proof.
  cbv zeta. splits; [|apply one_diag_of_first, diag_firstb_ok; reflexivity|vm_compute; reflexivity].
  unfold mat_ok. cbn [cm cn cp ci cnnz cpat]. split; [apply wf_mat_csc, wf_cscb_ok; reflexivity|]. split; [vm_compute; lia|discriminate].
Qed.
